(** Theorems about the atom table (C22), new_atom (C50), the atom of format errors (C51) and
    atom_length (C52). *)
Require Import ZArith List Bool Lia.
Require Import Verif.Heap_Model Verif.Atom_Model Verif.Atom_Spec Verif.Atom_Proofs.
Import ListNotations.
Open Scope Z_scope.

(** * C22: interning *)
(** after any history every observation is the one an injective finite map would give; no
    history leads to undefined behaviour *)
Theorem C22_history :
  forall HB max mem os, 1 <= max <= 2 ^ 31 -> legal_aops HB max (Empty_Table mem) os ->
  exists st l f, run_aops HB max (Empty_Table mem) os = Ret (st, l) /\ evs_ok max aempty l f.
Proof.
  intros HB max mem os Hm Lg. destruct (aops_ok HB max Hm os _ _ (empty_inv HB max mem) Lg) as [st [l [f [E [_ A]]]]]. eauto.
Qed.
(** two creations give the same atom exactly when the strings are the same *)
Theorem C22_intern :
  forall HB max mem os st l s1 s2 i1 i2, 1 <= max <= 2 ^ 31 -> legal_aops HB max (Empty_Table mem) os ->
  run_aops HB max (Empty_Table mem) os = Ret (st, l) -> In (ECreate s1 (Atom i1)) l -> In (ECreate s2 (Atom i2)) l ->
  (s1 = s2 <-> i1 = i2).
Proof.
  intros HB max mem os st l s1 s2 i1 i2 Hm Lg Er I1 I2. destruct (aops_ok HB max Hm os _ _ (empty_inv HB max mem) Lg) as [st' [l' [f [E [V A]]]]].
  rewrite Er in E. inversion E; subst st' l'. pose proof (evs_created _ _ _ _ _ _ A I1) as Q1. pose proof (evs_created _ _ _ _ _ _ A I2) as Q2.
  split; [congruence|]. intros ->. exact (inv_inj _ _ _ _ _ _ _ V Q1 Q2).
Qed.
(** an atom keeps its name as long as the process lives *)
Theorem C22_name :
  forall HB max mem os st l s i, 1 <= max <= 2 ^ 31 -> legal_aops HB max (Empty_Table mem) os ->
  run_aops HB max (Empty_Table mem) os = Ret (st, l) -> In (ECreate s (Atom i)) l -> Atom_Name max st i = Ret s.
Proof.
  intros HB max mem os st l s i Hm Lg Er I. destruct (aops_ok HB max Hm os _ _ (empty_inv HB max mem) Lg) as [st' [l' [f [E [V A]]]]].
  rewrite Er in E. inversion E; subst st' l'. pose proof (evs_created _ _ _ _ _ _ A I) as Q.
  destruct (i_map _ _ _ _ V _ _ Q) as [R [N [Es _]]]. unfold Atom_Name. rewrite rd_cell_ok by auto. cbn [bind]. unfold rd_str. now rewrite Es.
Qed.
(** Pl_Init_Atom never fails: atom i is the character of code i, [] is 256, '' is 0 - for any
    hash function and any table size that atom.c accepts up to 2^31; what follows is right too *)
Theorem C22_init :
  forall HB x mem str_char nil void, x <= 2 ^ 31 -> let max := Clamp_Max_Atom x in
  (forall j, 0 <= j < 256 -> str_char j <> 0 /\ mem (str_char j) = Some (if j =? 0 then [] else [j])) ->
  nil <> 0 -> mem nil = Some [91; 93] -> mem void = Some [] ->
  exists st f, Init_Atom HB max mem str_char nil void = Ret (Some (st, 0)) /\
    f [] = Some 0 /\ (forall c, 1 <= c <= 255 -> f [c] = Some c) /\ f [91; 93] = Some 256 /\
    (forall s t i, f s = Some i -> f t = Some i -> s = t) /\
    forall os, legal_aops HB max st os -> exists st' l f', run_aops HB max st os = Ret (st', l) /\ evs_ok max f l f'.
Proof.
  intros HB x mem str_char nil void Lx max Hs Nn En Ev.
  assert (Hm : 257 <= max <= 2 ^ 31).
  { unfold max, Clamp_Max_Atom, ATOM_NIL, ATOM_MAX_BITS. cbv zeta. destruct (Z.ltb_spec x 256).
    - cbn. lia.
    - destruct (Z.leb_spec x 256); [cbn; lia|]. destruct (Z.ltb_spec (2 ^ 54) x); lia. }
  assert (Hm' : 1 <= max <= 2 ^ 31) by lia.
  destruct (Init_ok HB max Hm' mem str_char nil void ltac:(lia) Hs Nn En Ev) as [st [f [E [V [F0 [Fc Fn]]]]]].
  exists st, f. split; [exact E|]. split; [exact F0|]. split; [exact Fc|]. split; [exact Fn|]. split; [intros; eapply inv_inj; eauto|].
  intros os Lg. destruct (aops_ok HB max Hm' os st f V Lg) as [st' [l [f' [E' [_ A]]]]]. eauto.
Qed.
(** a table of more than 2^31 cells (atom.c accepts up to 2^54): the index of a cell is an
    int; some name makes it negative whatever the size *)
Theorem C22_big_table_refuted :
  forall max, 2 ^ 31 < max <= 2 ^ 54 -> Clamp_Max_Atom max = max /\
  exists HB p mem, mem p = Some [102; 111; 111] /\ Find_Atom HB max (Empty_Table mem) p = UB /\ Create HB max (Empty_Table mem) p true 2 = UB.
Proof.
  intros max Hm. split.
  { unfold Clamp_Max_Atom, ATOM_NIL, ATOM_MAX_BITS. cbv zeta. destruct (Z.ltb_spec max 256); [lia|]. destruct (Z.leb_spec max 256); [lia|].
    destruct (Z.ltb_spec (2 ^ 54) max); lia. }
  exists (fun _ => 2 ^ 31), 1, (fun x => if x =? 1 then Some [102; 111; 111] else None). split; [reflexivity|].
  assert (G : forall mem, Locate_Atom max (Empty_Table mem) [102; 111; 111] (2 ^ 31) = UB).
  { intros mem. unfold Locate_Atom. rewrite Z.mod_small by lia. change (to_int (2 ^ 31)) with (- 2 ^ 31). cbv zeta.
    destruct (Z.to_nat max) as [|n] eqn:En; [lia|]. cbn [locate_loop]. unfold rd_cell. destruct (Z.leb_spec 0 (- 2 ^ 31)); [lia|]. reflexivity. }
  assert (E : Hash_String (fun _ => 2 ^ 31) [102; 111; 111] = 2 ^ 31) by reflexivity.
  split; unfold Find_Atom, Create, rd_str; cbn [smem Empty_Table Z.eqb Pos.eqb bind]; cbv zeta; rewrite E, G; reflexivity.
Qed.
(** a history of collisions in a table of 3 cells that wraps around, becomes full and
    reuses a buffer *)
Definition ex_mem : Z -> option str := fun p => if p =? 1 then Some [97; 98] else if p =? 2 then Some [98; 97] else None.
Definition ex_ops : list aop :=
  [OCreate 1 true 10; OCreate 2 true 11; OWrite 1 [99; 99]; OFind 1; OCreate 1 true 12; OWrite 1 [97; 98]; OCreate 1 true 13; OFind 2;
   ODrop 1; OWrite 2 [100; 100]; OCreate 2 true 14; ONext 0; OName 0].
Example C22_ex :
  legal_aops (fun _ => 2) 3 (Empty_Table ex_mem) ex_ops /\
  match run_aops (fun _ => 2) 3 (Empty_Table ex_mem) ex_ops with
  | Ret (_, l) => l = [ECreate [97; 98] (Atom 2); ECreate [98; 97] (Atom 0); EFind [99; 99] (-1); ECreate [99; 99] (Atom 1);
      ECreate [97; 98] (Atom 2); EFind [98; 97] 0; ECreate [100; 100] TableFull; ENext 0 1; EName 0 [98; 97]]
  | _ => False
  end.
Proof.
  split; [|vm_compute; reflexivity].
  assert (G : forall st p, (forall i, 0 <= i < 3 -> i = 0 \/ i = 1 \/ i = 2) -> aname (atbl st 0) <> p -> aname (atbl st 1) <> p -> aname (atbl st 2) <> p -> ~ is_name 3 st p).
  { intros st p C A0 A1 A2 [i [R E]]. destruct (C i R) as [->|[->| ->]]; congruence. }
  unfold ex_ops.
  repeat (cbn [legal_aops]; split; [cbn [legal_aop]; try (split; [cbn; try lia; try discriminate|]); try (split; [cbn; discriminate|intros _; split; [lia|reflexivity]]);
     try (apply G; [intros; lia|cbn; discriminate|cbn; discriminate|cbn; discriminate]); try (cbn; discriminate); try lia
     |intros ? ? Q; vm_compute in Q; injection Q as <- <-]). exact I.
Qed.

(** * C50: new_atom *)
(** as long as some length n <= 1023 is not used by the atoms beginning with the prefix,
    new_atom gives an atom that did not exist, whose name begins with the prefix *)
Theorem C50_new_atom_partial :
  forall HB max mem os st l f rand p s a n fuel, 1 <= max <= 2 ^ 31 -> legal_aops HB max (Empty_Table mem) os ->
  run_aops HB max (Empty_Table mem) os = Ret (st, l) -> evs_ok max aempty l f -> anb st < max ->
  smem st p = Some s -> a <> 0 -> smem st a = None ->
  (length s < n <= 1023)%nat -> (1023 <= fuel)%nat -> (forall suf, length (s ++ suf) = n -> f (s ++ suf) = None) ->
  exists st' i suf, Gen_New_Atom HB max fuel st rand p a = Ret (st', Atom i) /\ suf <> [] /\
    f (s ++ suf) = None /\ (forall t, f t <> Some i) /\ 0 <= i < max /\ Atom_Name max st' i = Ret (s ++ suf) /\
    forall os', legal_aops HB max st' os' -> exists st'' l' f', run_aops HB max st' os' = Ret (st'', l') /\ evs_ok max (aset f (s ++ suf) i) l' f'.
Proof.
  intros HB max mem os st l f rand p s a n fuel Hm Lg Er A Ln Ep Na Fa Bn Lf Hn.
  destruct (aops_ok HB max Hm os _ _ (empty_inv HB max mem) Lg) as [st1 [l1 [f1 [E [V A1]]]]].
  rewrite Er in E. inversion E; subst st1 l1. assert (f1 = f) by exact (evs_fun _ _ _ _ _ A1 A). subst f1.
  destruct (Gen_ok HB max Hm st f rand p s a fuel n V Ln Ep Na Fa Bn Lf Hn) as [st' [i [suf [Eg [Ns [Fn [Hi [R V']]]]]]]].
  exists st', i, suf. split; [exact Eg|]. split; [exact Ns|]. split; [exact Fn|]. split; [exact Hi|]. split; [exact R|]. split.
  - destruct (i_map _ _ _ _ V' (s ++ suf) i (aset_eq _ _ _)) as [_ [N [Es _]]]. unfold Atom_Name. rewrite rd_cell_ok by auto. cbn [bind]. unfold rd_str. now rewrite Es.
  - intros os' Lg'. destruct (aops_ok HB max Hm os' st' _ V' Lg') as [st'' [l' [f' [E' [_ A']]]]]. eauto.
Qed.
(** the table is full: reported, nothing changes *)
Theorem C50_full : forall HB max fuel st rand p a, max <= anb st -> Gen_New_Atom HB max fuel st rand p a = Ret (st, TableFull).
Proof. intros. unfold Gen_New_Atom. destruct (Z.leb_spec max (anb st)); [reflexivity|lia]. Qed.
(** a prefix of 1023 characters or more overflows gen_sym_buff, whatever the table *)
Theorem C50_prefix_refuted : forall HB max fuel st rand p a s, anb st < max -> smem st p = Some s -> (1023 <= length s)%nat ->
  Gen_New_Atom HB max (S fuel) st rand p a = UB.
Proof.
  intros HB max fuel st rand p a s Ln Ep Ls. unfold Gen_New_Atom. destruct (Z.leb_spec max (anb st)); [lia|]. unfold rd_str. rewrite Ep. cbn [bind].
  destruct (Nat.ltb_spec 1023 (length s)); [reflexivity|]. cbn [gen_loop]. destruct (Nat.ltb_spec 1023 (length s + 1)); [reflexivity|lia].
Qed.
(** "ab" then a new atom of prefix "a" where the generator first proposes "ab" *)
Example C50_ex :
  match run_aops (fun _ => 2) 5 (Empty_Table (fun p => if p =? 1 then Some [97; 98] else if p =? 2 then Some [97] else None)) [OCreate 1 true 10] with
  | Ret (st, _) =>
    match Gen_New_Atom (fun _ => 2) 5 1023 st (fun k => match k with O => 37 | _ => 38 end) 2 11 with
    | Ret (st', Atom i) => i = 3 /\ Atom_Name 5 st' 3 = Ret [97; 98; 99] /\ Atom_Name 5 st' 2 = Ret [97; 98]
    | _ => False
    end
  | _ => False
  end.
Proof. vm_compute. repeat split; reflexivity. Qed.

(** * C51: the atom in the error of a wrong printf directive *)
(** right when the atom existed before *)
Theorem C51_format_error_partial :
  forall HB max mem os st l f buff fmt s i, 1 <= max <= 2 ^ 31 -> legal_aops HB max (Empty_Table mem) os ->
  run_aops HB max (Empty_Table mem) os = Ret (st, l) -> evs_ok max aempty l f -> buff <> 0 -> ~ is_name max st buff ->
  (length s <= 2047)%nat -> (exists c, printf_copy fmt = (s, c) /\ printf_letter c = false) -> f s = Some i ->
  exists st', Format_Error HB max st buff fmt = Ret (Some (st', Atom i)) /\ Atom_Name max st' i = Ret s.
Proof.
  intros HB max mem os st l f buff fmt s i Hm Lg Er A Nb Hn Ls [c [Ec Lc]] Q.
  destruct (aops_ok HB max Hm os _ _ (empty_inv HB max mem) Lg) as [st1 [l1 [f1 [E [V A1]]]]].
  rewrite Er in E. inversion E; subst st1 l1. assert (f1 = f) by exact (evs_fun _ _ _ _ _ A1 A). subst f1.
  unfold Format_Error. rewrite Ec. destruct (Nat.ltb_spec 2047 (length s)); [lia|]. rewrite Lc. cbv zeta.
  pose proof (smem_inv HB max Hm st f buff (Some s) V Nb Hn) as V1.
  pose proof (Create_old HB max Hm _ f buff s i V1 ltac:(apply aupd_eq) Q) as Eo. unfold create_at in Eo.
  match goal with |- context [Create HB max ?x buff false 0] => replace (Create HB max x buff false 0) with (Ret (Astate (upd (smem st) buff (Some s)) (atbl st) (anb st), Atom i)) by (symmetry; exact Eo) end. cbn [bind].
  eexists. split; [reflexivity|]. cbn [smem atbl anb].
  assert (V2 : inv HB max (Astate (upd (upd (smem st) buff (Some s)) buff None) (atbl st) (anb st)) f).
  { apply (smem_inv HB max Hm (Astate (upd (smem st) buff (Some s)) (atbl st) (anb st)) f buff None V1 Nb). exact Hn. }
  destruct (i_map _ _ _ _ V2 _ _ Q) as [R [N [Es _]]]. unfold Atom_Name. rewrite rd_cell_ok by auto. cbn [bind]. unfold rd_str. cbn [smem atbl] in *. now rewrite Es.
Qed.
(** wrong in every state when the atom did not exist: reading its name is undefined *)
Theorem C51_format_error_refuted :
  forall HB max mem os st l f buff fmt s, 1 <= max <= 2 ^ 31 -> legal_aops HB max (Empty_Table mem) os ->
  run_aops HB max (Empty_Table mem) os = Ret (st, l) -> evs_ok max aempty l f -> buff <> 0 -> ~ is_name max st buff ->
  (length s <= 2047)%nat -> (exists c, printf_copy fmt = (s, c) /\ printf_letter c = false) -> f s = None -> anb st < max ->
  exists st' i, Format_Error HB max st buff fmt = Ret (Some (st', Atom i)) /\ Atom_Name max st' i = UB.
Proof.
  intros HB max mem os st l f buff fmt s Hm Lg Er A Nb Hn Ls [c [Ec Lc]] Q Ln.
  destruct (aops_ok HB max Hm os _ _ (empty_inv HB max mem) Lg) as [st1 [l1 [f1 [E [V A1]]]]].
  rewrite Er in E. inversion E; subst st1 l1. assert (f1 = f) by exact (evs_fun _ _ _ _ _ A1 A). subst f1.
  unfold Format_Error. rewrite Ec. destruct (Nat.ltb_spec 2047 (length s)); [lia|]. rewrite Lc. cbv zeta.
  pose proof (smem_inv HB max Hm st f buff (Some s) V Nb Hn) as V1. set (st1 := Astate (upd (smem st) buff (Some s)) (atbl st) (anb st)) in *.
  match goal with |- context [Create HB max ?x buff false 0] => change x with st1 end.
  unfold Create, rd_str. replace (smem st1 buff) with (Some s) by (symmetry; apply aupd_eq). cbn [bind].
  destruct (Locate_ok HB max Hm st1 f s V1) as [r [-> Hr]]. cbn [bind]. destruct r as [i|].
  - destruct Hr as [R [Q'|[_ [Ei _]]]]; [congruence|]. unfold Add_Atom. rewrite rd_cell_ok by auto. cbn [bind]. rewrite Ei. cbn [Z.eqb negb bind].
    eexists _, i. split; [reflexivity|]. unfold Atom_Name. rewrite rd_cell_ok by auto. cbn [bind atbl smem]. rewrite aupd_eq. cbn [aname].
    unfold rd_str. cbn [smem]. now rewrite aupd_eq.
  - destruct Hr as [_ Hu]. exfalso. exact (not_full HB max Hm st1 f V1 Ln Hu).
Qed.
(** the directive itself can overflow the array *)
Theorem C51_long_directive_refuted : forall HB max st buff fmt, (2047 < length (fst (printf_copy fmt)))%nat -> Format_Error HB max st buff fmt = UB.
Proof. intros HB max st buff fmt L. unfold Format_Error. destruct (printf_copy fmt) as [s c]. cbn [fst] in L. destruct (Nat.ltb_spec 2047 (length s)); [reflexivity|lia]. Qed.
(** ~%5z : the atom '%5z' *)
Example C51_ex :
  printf_copy [37; 53; 122; 33] = ([37; 53; 122], 122) /\ printf_letter 122 = false /\
  match Format_Error (fun _ => 2) 5 (Empty_Table (fun _ => None)) 7 [37; 53; 122; 33] with
  | Ret (Some (st', r)) => r = Atom 2 /\ Atom_Name 5 st' 2 = UB
  | _ => False
  end /\
  match run_aops (fun _ => 2) 5 (Empty_Table (fun p => if p =? 1 then Some [37; 53; 122] else None)) [OCreate 1 true 10] with
  | Ret (st, _) =>
    match Format_Error (fun _ => 2) 5 st 7 [37; 53; 122; 33] with
    | Ret (Some (st', r)) => r = Atom 2 /\ Atom_Name 5 st' 2 = Ret [37; 53; 122]
    | _ => False
    end
  | _ => False
  end.
Proof. vm_compute. repeat split; reflexivity. Qed.

(** * C52: atom_length *)
Theorem C52_atom_length_partial :
  forall HB max mem os st l s i, 1 <= max <= 2 ^ 31 -> legal_aops HB max (Empty_Table mem) os ->
  run_aops HB max (Empty_Table mem) os = Ret (st, l) -> In (ECreate s (Atom i)) l -> Z.of_nat (length s) < 65536 ->
  Atom_Length max st i = Ret (Z.of_nat (length s)).
Proof.
  intros HB max mem os st l s i Hm Lg Er I Ls. destruct (aops_ok HB max Hm os _ _ (empty_inv HB max mem) Lg) as [st' [l' [f [E [V A]]]]].
  rewrite Er in E. inversion E; subst st' l'. pose proof (evs_created _ _ _ _ _ _ A I) as Q.
  destruct (i_map _ _ _ _ V _ _ Q) as [R _]. unfold Atom_Length. rewrite rd_cell_ok by auto. cbn [bind]. rewrite (i_len _ _ _ _ V _ _ Q). unfold bits16.
  rewrite Z.mod_small; [reflexivity|]. change (2 ^ 16) with 65536. lia.
Qed.
(** every longer atom gets a wrong length *)
Theorem C52_long_refuted :
  forall HB max mem os st l s i, 1 <= max <= 2 ^ 31 -> legal_aops HB max (Empty_Table mem) os ->
  run_aops HB max (Empty_Table mem) os = Ret (st, l) -> In (ECreate s (Atom i)) l -> 65536 <= Z.of_nat (length s) ->
  exists n, Atom_Length max st i = Ret n /\ n <> Z.of_nat (length s) /\ n = Z.of_nat (length s) mod 65536.
Proof.
  intros HB max mem os st l s i Hm Lg Er I Ls. destruct (aops_ok HB max Hm os _ _ (empty_inv HB max mem) Lg) as [st' [l' [f [E [V A]]]]].
  rewrite Er in E. inversion E; subst st' l'. pose proof (evs_created _ _ _ _ _ _ A I) as Q.
  destruct (i_map _ _ _ _ V _ _ Q) as [R _]. unfold Atom_Length. rewrite rd_cell_ok by auto. cbn [bind]. rewrite (i_len _ _ _ _ V _ _ Q). unfold bits16.
  change (2 ^ 16) with 65536. eexists. split; [reflexivity|]. split; [|reflexivity].
  pose proof (Z.mod_pos_bound (Z.of_nat (length s)) 65536 ltac:(lia)). lia.
Qed.
(** there is such an atom: 65537 times a has length 1 *)
Example C52_ex :
  let s := repeat 97 (Z.to_nat 65537) in let mem := fun p => if p =? 1 then Some s else None in
  legal_aops (fun _ => 2) 5 (Empty_Table mem) [OCreate 1 true 10] /\
  exists st, run_aops (fun _ => 2) 5 (Empty_Table mem) [OCreate 1 true 10] = Ret (st, [ECreate s (Atom 2)]) /\ Atom_Length 5 st 2 = Ret 1.
Proof.
  intros s mem. assert (Ls : Z.of_nat (length s) = 65537) by (unfold s; rewrite repeat_length, Z2Nat.id; lia).
  assert (Hh : Hash_String (fun _ => 2) s = 2).
  { unfold s. replace (Z.to_nat 65537) with (S (S (Z.to_nat 65535))) by lia. cbn [repeat]. unfold Hash_String.
    destruct (str_eqb_spec (97 :: 97 :: repeat 97 (Z.to_nat 65535)) [91; 93]) as [Q|]; [discriminate Q|reflexivity]. }
  split; [cbn [legal_aops]; split; [|auto]; cbn; repeat split; discriminate|].
  eexists. split.
  - cbn [run_aops run_aop]. unfold rd_str at 1. cbn [smem Empty_Table]. change (mem 1) with (Some s). cbn [bind]. unfold Create, rd_str at 1. cbn [smem Empty_Table].
    change (mem 1) with (Some s). cbn [bind]. rewrite Hh. unfold Locate_Atom. change (to_int (2 mod 5)) with 2. change (Z.to_nat 5) with 5%nat.
    cbn [locate_loop]. change (rd_cell 5 (Empty_Table mem) 2) with (Ret (Acell 0 0 0)). cbn [bind aname Z.eqb]. unfold Add_Atom.
    change (rd_cell 5 (Empty_Table mem) 2) with (Ret (Acell 0 0 0)). cbn [bind aname Z.eqb negb app]. reflexivity.
  - unfold Atom_Length. change (rd_cell 5 (Astate (upd (smem (Empty_Table mem)) 10 (Some s)) (upd (atbl (Empty_Table mem)) 2 (Acell 10 2 (bits16 (Z.of_nat (length s))))) (anb (Empty_Table mem) + 1)) 2)
      with (Ret (Acell 10 2 (bits16 (Z.of_nat (length s))))). cbn [bind alen]. now rewrite Ls.
Qed.

Print Assumptions C22_history.
Print Assumptions C22_intern.
Print Assumptions C22_name.
Print Assumptions C22_init.
Print Assumptions C22_big_table_refuted.
Print Assumptions C50_new_atom_partial.
Print Assumptions C50_full.
Print Assumptions C50_prefix_refuted.
Print Assumptions C51_format_error_partial.
Print Assumptions C51_format_error_refuted.
Print Assumptions C51_long_directive_refuted.
Print Assumptions C52_atom_length_partial.
Print Assumptions C52_long_refuted.
