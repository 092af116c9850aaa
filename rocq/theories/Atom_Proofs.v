(** Proofs about the atom table (C22). *)
Require Import ZArith List Bool Lia FinFun.
Require Import Verif.Heap_Model Verif.Atom_Model Verif.Atom_Spec.
Import ListNotations.
Open Scope Z_scope.

Lemma str_eqb_spec a b : reflect (a = b) (str_eqb a b).
Proof. unfold str_eqb. destruct (list_eq_dec Z.eq_dec a b); constructor; auto. Qed.
Lemma str_eqb_refl a : str_eqb a a = true. Proof. now destruct (str_eqb_spec a a). Qed.
Lemma aset_eq f s i : aset f s i s = Some i. Proof. unfold aset. now rewrite str_eqb_refl. Qed.
Lemma aset_neq f s i t : t <> s -> aset f s i t = f t. Proof. unfold aset. now destruct (str_eqb_spec t s). Qed.
Lemma aupd_eq {A} (f : Z -> A) a v : upd f a v a = v. Proof. unfold upd. now rewrite Z.eqb_refl. Qed.
Lemma aupd_neq {A} (f : Z -> A) a v x : x <> a -> upd f a v x = f x. Proof. unfold upd. now destruct (Z.eqb_spec x a). Qed.

Section P.
Variable HB : str -> Z.
Variable max : Z.
Hypothesis Hmax : 1 <= max <= 2 ^ 31.
Notation H := (Hash_String HB).
Notation at_ i0 k := ((i0 + k) mod max).

Definition used (st : astate) (i : Z) : bool := negb (aname (atbl st i) =? 0).
Definition cells : list Z := map Z.of_nat (seq 0 (Z.to_nat max)).
Definition count (st : astate) : Z := Z.of_nat (length (filter (used st) cells)).
Record inv (st : astate) (f : amap) : Prop := {
  i_cell : forall i, 0 <= i < max -> aname (atbl st i) <> 0 ->
    exists s, smem st (aname (atbl st i)) = Some s /\ ahash (atbl st i) = H s /\ f s = Some i;
  i_map : forall s i, f s = Some i -> 0 <= i < max /\ aname (atbl st i) <> 0 /\ smem st (aname (atbl st i)) = Some s /\ ahash (atbl st i) = H s;
  i_probe : forall s i, f s = Some i -> exists k, 0 <= k < max /\ i = at_ (H s mod max) k /\
    forall j, 0 <= j < k -> aname (atbl st (at_ (H s mod max) j)) <> 0;
  i_nb : anb st = count st;
  i_len : forall s i, f s = Some i -> alen (atbl st i) = bits16 (Z.of_nat (length s))
}.
Lemma inv_inj st f s t i : inv st f -> f s = Some i -> f t = Some i -> s = t.
Proof. intros V A B. destruct (i_map _ _ V _ _ A) as [_ [_ [C _]]]. destruct (i_map _ _ V _ _ B) as [_ [_ [D _]]]. congruence. Qed.
Lemma inv_used st f i : inv st f -> 0 <= i < max -> (aname (atbl st i) <> 0 <-> exists s, f s = Some i).
Proof.
  intros V R. split; [intros N; destruct (i_cell _ _ V i R N) as [s [_ [_ Q]]]; eauto|]. intros [s Q]. now destruct (i_map _ _ V _ _ Q) as [_ [N _]].
Qed.

(** ** Probing *)
Definition stop (st : astate) (s : str) (h i : Z) : Prop :=
  aname (atbl st i) = 0 \/ (ahash (atbl st i) = h /\ smem st (aname (atbl st i)) = Some s).
Definition live (st : astate) : Prop := forall i, 0 <= i < max -> aname (atbl st i) <> 0 -> smem st (aname (atbl st i)) <> None.
Lemma rd_cell_ok st i : 0 <= i < max -> rd_cell max st i = Ret (atbl st i).
Proof. intros R. unfold rd_cell. destruct (Z.leb_spec 0 i), (Z.ltb_spec i max); try lia. reflexivity. Qed.
Lemma at_range i0 k : 0 <= at_ i0 k < max. Proof. apply Z.mod_pos_bound. lia. Qed.
Lemma at_step i0 k : 0 <= i0 < max -> 0 <= k < max -> (if at_ i0 k + 1 =? max then 0 else at_ i0 k + 1) = at_ i0 (k + 1).
Proof.
  intros R K. rewrite Z.add_assoc. rewrite <- (Zplus_mod_idemp_l (i0 + k) 1 max). pose proof (at_range i0 k) as Q. revert Q.
  generalize (at_ i0 k) as x. intros x Q. destruct (Z.eqb_spec (x + 1) max) as [->|N]; [now rewrite Z.mod_same by lia|]. now rewrite Z.mod_small by lia.
Qed.
Lemma at_inj i0 a b : 0 <= a < max -> 0 <= b < max -> at_ i0 a = at_ i0 b -> a = b.
Proof.
  intros A B E. assert (Q : (a - b) mod max = 0).
  { replace (a - b) with ((i0 + a) - (i0 + b)) by lia. rewrite Zminus_mod, E, Z.sub_diag. apply Z.mod_0_l. lia. }
  apply Z.mod_divide in Q; [|lia]. destruct Q as [q Q]. assert (q < 1) by nia. assert (-1 < q) by nia. assert (q = 0) by lia. subst q. lia.
Qed.
Lemma at_0 i0 : 0 <= i0 < max -> at_ i0 0 = i0. Proof. intros. rewrite Z.add_0_r. now apply Z.mod_small. Qed.
Lemma at_max i0 : 0 <= i0 < max -> at_ i0 max = i0.
Proof. intros R. rewrite <- (Z.mul_1_l max) at 1. rewrite Z_mod_plus by lia. now apply Z.mod_small. Qed.
Lemma loop_spec st s h i0 : live st -> 0 <= i0 < max -> forall n k, 0 <= k < max -> Z.of_nat n = max - k ->
  (exists j, k <= j < max /\ stop st s h (at_ i0 j) /\ (forall x, k <= x < j -> ~ stop st s h (at_ i0 x)) /\
     locate_loop max n st s h i0 (at_ i0 k) = Ret (Some (at_ i0 j))) \/
  ((forall x, k <= x < max -> ~ stop st s h (at_ i0 x)) /\ locate_loop max n st s h i0 (at_ i0 k) = Ret None).
Proof.
  intros L R. induction n as [|n IH]; intros k K E; [lia|]. cbn [locate_loop]. rewrite rd_cell_ok by apply at_range. cbn [bind].
  pose proof (at_range i0 k) as Ra. destruct (Z.eqb_spec (aname (atbl st (at_ i0 k))) 0) as [Z0|Nz].
  { left. exists k. split; [lia|]. split; [now left|]. split; [intros; lia|reflexivity]. }
  pose proof (L _ Ra Nz) as Lv. unfold rd_str. destruct (smem st (aname (atbl st (at_ i0 k)))) as [t|] eqn:Es; [|congruence]. cbn [bind].
  assert (D : (ahash (atbl st (at_ i0 k)) = h /\ t = s) \/ ~ (ahash (atbl st (at_ i0 k)) = h /\ t = s)).
  { destruct (Z.eq_dec (ahash (atbl st (at_ i0 k))) h), (list_eq_dec Z.eq_dec t s); tauto. }
  destruct D as [[D1 D2]|D].
  - left. exists k. split; [lia|]. split; [right; split; congruence|]. split; [intros; lia|]. rewrite D1, Z.eqb_refl, D2. cbn [bind].
    now rewrite str_eqb_refl.
  - match goal with |- context [bind ?cc ?kk] => assert (Sm : bind cc kk =
        (if at_ i0 (k + 1) =? i0 then Ret None else locate_loop max n st s h i0 (at_ i0 (k + 1)))) end.
    { cbv zeta. rewrite at_step by auto. destruct (Z.eqb_spec (ahash (atbl st (at_ i0 k))) h); cbn [bind]; [|reflexivity].
      destruct (str_eqb_spec t s); [tauto|reflexivity]. }
    rewrite Sm. clear Sm.
    assert (Ns : ~ stop st s h (at_ i0 k)) by (intros [Q|[Q1 Q2]]; [congruence|apply D; split; congruence]).
    destruct (Z.eqb_spec (at_ i0 (k + 1)) i0) as [Q|Nq].
    + right. assert (k + 1 = max).
      { destruct (Z.eq_dec (k + 1) max); auto. assert (k + 1 = 0); [|lia]. apply (at_inj i0); try lia. now rewrite Q, at_0. }
      split; [|reflexivity]. intros x Rx. assert (x = k) by lia. now subst.
    + assert (k + 1 < max). { destruct (Z.eq_dec (k + 1) max) as [Q|]; [|lia]. exfalso. apply Nq. rewrite Q. now apply at_max. }
      destruct (IH (k + 1) ltac:(lia) ltac:(lia)) as [[j [Rj [Sj [Hj Ej]]]]|[Hj Ej]].
      * left. exists j. split; [lia|]. split; [exact Sj|]. split; [|exact Ej]. intros x Rx. destruct (Z.eq_dec x k); [now subst|]. apply Hj. lia.
      * right. split; [|exact Ej]. intros x Rx. destruct (Z.eq_dec x k); [now subst|]. apply Hj. lia.
Qed.
Lemma inv_live st f : inv st f -> live st.
Proof. intros V i R N. destruct (i_cell _ _ V i R N) as [s [-> _]]. discriminate. Qed.
Lemma Locate_ok st f s : inv st f ->
  exists r, Locate_Atom max st s (H s) = Ret r /\
    match r with
    | None => f s = None /\ forall i, 0 <= i < max -> aname (atbl st i) <> 0
    | Some i => 0 <= i < max /\
      (f s = Some i \/ (f s = None /\ aname (atbl st i) = 0 /\ exists k, 0 <= k < max /\ i = at_ (H s mod max) k /\
        forall j, 0 <= j < k -> aname (atbl st (at_ (H s mod max) j)) <> 0))
    end.
Proof.
  intros V. unfold Locate_Atom. cbv zeta. set (i0 := H s mod max).
  assert (R0 : 0 <= i0 < max) by (apply Z.mod_pos_bound; lia).
  assert (to_int i0 = i0) as ->. { unfold to_int. rewrite Z.mod_small; lia. }
  replace (locate_loop max (Z.to_nat max) st s (H s) i0 i0) with (locate_loop max (Z.to_nat max) st s (H s) i0 (at_ i0 0)) by (now rewrite at_0).
  assert (St : forall x, 0 <= x < max -> aname (atbl st x) <> 0 -> (stop st s (H s) x <-> f s = Some x)).
  { intros x Rx Nz. destruct (i_cell _ _ V x Rx Nz) as [t [Em [Eh Ef]]]. split.
    - intros [Q|[Q1 Q2]]; [congruence|]. assert (t = s) by congruence. now subst.
    - intros Q. right. destruct (i_map _ _ V _ _ Q) as [_ [_ [A B]]]. auto. }
  destruct (loop_spec st s (H s) i0 (inv_live _ _ V) R0 (Z.to_nat max) 0 ltac:(lia) ltac:(lia)) as [[j [Rj [Sj [Hj ->]]]]|[Hj ->]]; eexists; (split; [reflexivity|]).
  - pose proof (at_range i0 j) as Ra. split; [exact Ra|].
    assert (Hu : forall x, 0 <= x < j -> aname (atbl st (at_ i0 x)) <> 0) by (intros x Rx Q; apply (Hj x Rx); now left).
    destruct (Z.eq_dec (aname (atbl st (at_ i0 j))) 0) as [E|N]; [|left; now apply St].
    right. split; [|split; [exact E|exists j; auto]]. destruct (f s) as [i|] eqn:F; [exfalso|reflexivity].
    destruct (i_probe _ _ V _ _ F) as [k [Rk [Ei Hk]]]. fold i0 in Ei, Hk. destruct (Z.lt_trichotomy k j) as [C|[C|C]].
    + apply (Hj k ltac:(lia)). destruct (i_map _ _ V _ _ F) as [A [B [C1 C2]]]. rewrite <- Ei. right. auto.
    + subst k. destruct (i_map _ _ V _ _ F) as [_ [B _]]. rewrite Ei in B. contradiction.
    + apply (Hk j ltac:(lia)). exact E.
  - assert (Hu : forall i, 0 <= i < max -> ~ stop st s (H s) i).
    { intros i Ri. assert (Rm : 0 <= (i - i0) mod max < max) by (apply Z.mod_pos_bound; lia). specialize (Hj ((i - i0) mod max) Rm).
      rewrite Zplus_mod_idemp_r in Hj. replace (i0 + (i - i0)) with i in Hj by ring. rewrite Z.mod_small in Hj by lia. exact Hj. }
    split.
    + destruct (f s) as [i|] eqn:F; [exfalso|reflexivity]. destruct (i_map _ _ V _ _ F) as [A [B [C1 C2]]]. apply (Hu i A). right. auto.
    + intros i Ri Q. apply (Hu i Ri). now left.
Qed.

(** ** The operations *)
Lemma in_cells i : In i cells <-> 0 <= i < max.
Proof.
  unfold cells. rewrite in_map_iff. split.
  - intros [n [<- I]]. apply in_seq in I. lia.
  - intros R. exists (Z.to_nat i). split; [lia|]. apply in_seq. lia.
Qed.
Lemma cells_nodup : NoDup cells.
Proof. unfold cells. apply FinFun.Injective_map_NoDup; [intros a b; apply Nat2Z.inj|apply seq_NoDup]. Qed.
Lemma filter_upd (p q : Z -> bool) i : forall l, NoDup l -> In i l -> p i = false -> q i = true -> (forall x, x <> i -> q x = p x) ->
  length (filter q l) = S (length (filter p l)).
Proof.
  induction l as [|x l IH]; intros ND I Pi Qi E; [destruct I|]. inversion ND as [|? ? Nx Nl]; subst. cbn [filter]. destruct I as [->|I].
  - rewrite Pi, Qi. cbn [length]. f_equal. f_equal. apply filter_ext_in. intros y Iy. apply E. intros ->. contradiction.
  - assert (x <> i) by (intros ->; contradiction). rewrite (E x) by auto. specialize (IH Nl I Pi Qi E). destruct (p x); cbn [length]; lia.
Qed.
Lemma Add_ok st f p s al a i : inv st f -> 0 <= i < max -> smem st p = Some s -> p <> 0 -> (al = true -> a <> 0 /\ smem st a = None) ->
  f s = None -> aname (atbl st i) = 0 -> (exists k, 0 <= k < max /\ i = at_ (H s mod max) k /\
        forall j, 0 <= j < k -> aname (atbl st (at_ (H s mod max) j)) <> 0) ->
  exists st', Add_Atom max st p s (H s) (Some i) al a = Ret (st', Atom i) /\ inv st' (aset f s i) /\ anb st' = anb st + 1 /\
    (forall t, f t <> Some i).
Proof.
  intros V R Ep Np Ha Fs Ec Pr. unfold Add_Atom. rewrite rd_cell_ok by auto. cbn [bind]. rewrite Ec, Z.eqb_refl. cbn [negb].
  assert (Hnew : forall t, f t <> Some i) by (intros t Q; destruct (i_map _ _ V _ _ Q) as [_ [B _]]; contradiction).
  set (name := if al then a else p). set (mem := if al then upd (smem st) a (Some s) else smem st).
  assert (Enm : (if al then (upd (smem st) a (Some s), a) else (smem st, p)) = (mem, name)) by (destruct al; reflexivity).
  rewrite Enm. cbn [fst snd]. eexists. split; [reflexivity|].
  assert (Nn : name <> 0) by (unfold name; destruct al; [apply Ha; auto|auto]).
  assert (Mn : mem name = Some s) by (unfold mem, name; destruct al; [apply aupd_eq|auto]).
  assert (Mo : forall q t, smem st q = Some t -> mem q = Some t).
  { intros q t Q. unfold mem. destruct al; [|auto]. rewrite aupd_neq; [auto|]. intros ->. destruct (Ha eq_refl). congruence. }
  split; [split; cbn [smem atbl anb]|split; [reflexivity|exact Hnew]].
  - intros x Rx Nx. destruct (Z.eq_dec x i) as [->|N].
    + rewrite aupd_eq. cbn [aname ahash]. exists s. split; [auto|]. split; [auto|apply aset_eq].
    + rewrite aupd_neq in * by auto. destruct (i_cell _ _ V x Rx Nx) as [t [A [B C]]]. exists t. split; [auto|]. split; [auto|].
      rewrite aset_neq; [auto|]. intros ->. congruence.
  - intros t x Q. destruct (list_eq_dec Z.eq_dec t s) as [->|N].
    + rewrite aset_eq in Q. assert (x = i) by congruence. subst x. rewrite aupd_eq. cbn [aname ahash]. auto.
    + rewrite aset_neq in Q by auto. assert (x <> i) by (intros ->; exact (Hnew t Q)). rewrite aupd_neq by auto.
      destruct (i_map _ _ V _ _ Q) as [A [B [C D]]]. auto.
  - assert (Hk : forall y, aname (atbl st y) <> 0 -> aname (upd (atbl st) i (Acell name (H s) (bits16 (Z.of_nat (length s)))) y) <> 0).
    { intros y Q. destruct (Z.eq_dec y i) as [->|N]; [rewrite aupd_eq; exact Nn|rewrite aupd_neq; auto]. }
    intros t x Q. destruct (list_eq_dec Z.eq_dec t s) as [->|N].
    + rewrite aset_eq in Q. assert (x = i) by congruence. subst x. destruct Pr as [k [A [B C]]]. exists k. split; [auto|]. split; [auto|]. auto.
    + rewrite aset_neq in Q by auto. destruct (i_probe _ _ V _ _ Q) as [k [A [B C]]]. exists k. split; [auto|]. split; [auto|]. auto.
  - rewrite (i_nb _ _ V). unfold count.
    rewrite (filter_upd (used st) (used (Astate mem (upd (atbl st) i (Acell name (H s) (bits16 (Z.of_nat (length s))))) (anb st + 1))) i); [lia|exact cells_nodup|now apply in_cells| | |].
    + unfold used. now rewrite Ec.
    + unfold used. cbn [atbl]. rewrite aupd_eq. cbn [aname]. now destruct (Z.eqb_spec name 0).
    + intros x N. unfold used. cbn [atbl]. now rewrite aupd_neq.
  - intros t x Q. destruct (list_eq_dec Z.eq_dec t s) as [->|N].
    + rewrite aset_eq in Q. assert (x = i) by congruence. subst x. now rewrite aupd_eq.
    + rewrite aset_neq in Q by auto. assert (x <> i) by (intros ->; exact (Hnew t Q)). rewrite aupd_neq by auto. exact (i_len _ _ V _ _ Q).
Qed.
Lemma Create_ok st f p s al a : inv st f -> p <> 0 -> smem st p = Some s -> (al = true -> a <> 0 /\ smem st a = None) ->
  exists st' r f', Create HB max st p al a = Ret (st', r) /\ inv st' f' /\ ev_ok max f (ECreate s r) f'.
Proof.
  intros V Np Ep Ha. unfold Create, rd_str. rewrite Ep. cbn [bind]. destruct (Locate_ok st f s V) as [r [-> Hr]]. cbn [bind]. destruct r as [i|].
  - destruct Hr as [R [Q|[Fs [Ec Pr]]]].
    + exists st, (Atom i), f. destruct (i_map _ _ V _ _ Q) as [_ [N _]]. unfold Add_Atom. rewrite rd_cell_ok by auto. cbn [bind].
      destruct (Z.eqb_spec (aname (atbl st i)) 0); [contradiction|]. split; [reflexivity|]. split; [exact V|now apply ok_old].
    + destruct (Add_ok st f p s al a i V R Ep Np Ha Fs Ec Pr) as [st' [E [V' [_ Hn]]]]. exists st', (Atom i), (aset f s i). split; [exact E|].
      split; [exact V'|now apply ok_new].
  - destruct Hr as [Fs Hf]. exists st, TableFull, f. split; [reflexivity|]. split; [exact V|]. apply ok_full; [exact Fs|].
    intros i R. apply (inv_used _ _ _ V R). now apply Hf.
Qed.
Lemma Find_ok st f p s : inv st f -> smem st p = Some s -> exists i, Find_Atom HB max st p = Ret i /\ ev_ok max f (EFind s i) f.
Proof.
  intros V Ep. unfold Find_Atom, rd_str. rewrite Ep. cbn [bind]. destruct (Locate_ok st f s V) as [r [-> Hr]]. cbn [bind]. destruct r as [i|].
  - destruct Hr as [R [Q|[Fs [Ec Pr]]]]; rewrite rd_cell_ok by auto; cbn [bind]; eexists; (split; [reflexivity|]).
    + destruct (i_map _ _ V _ _ Q) as [_ [N _]]. destruct (Z.eqb_spec (aname (atbl st i)) 0); [contradiction|]. now apply ok_found.
    + rewrite Ec, Z.eqb_refl. now apply ok_absent.
  - destruct Hr as [Fs _]. eexists. split; [reflexivity|]. now apply ok_absent.
Qed.
Lemma Next_ok st f last : inv st f -> -1 <= last < max -> exists i, Find_Next_Atom max st last = Ret i /\ ev_ok max f (ENext last i) f.
Proof.
  intros V R. unfold Find_Next_Atom.
  assert (G : forall n l, -1 <= l < max -> max - l <= Z.of_nat n -> (forall j t, last < j <= l -> f t <> Some j) -> last <= l ->
     exists i, next_loop max n st l = Ret i /\ ev_ok max f (ENext last i) f).
  { induction n as [|n IH]; intros l Rl Ln Hl Le; [lia|]. cbn [next_loop]. assert ((l + 1) mod 2 ^ 64 = l + 1) as -> by (apply Z.mod_small; lia).
    destruct (Z.ltb_spec (l + 1) max).
    - rewrite rd_cell_ok by lia. cbn [bind]. destruct (Z.eqb_spec (aname (atbl st (l + 1))) 0) as [E|N]; cbn [negb].
      + apply IH; try lia. intros j t Rj Q. destruct (Z.eq_dec j (l + 1)) as [->|]; [|apply (Hl j t); [lia|exact Q]].
        destruct (i_map _ _ V _ _ Q) as [_ [B _]]. contradiction.
      + exists (l + 1). split; [reflexivity|]. apply ok_next; [lia|apply (inv_used _ _ _ V); auto; lia|]. intros j t Rj. apply Hl. lia.
    - exists (-1). split; [reflexivity|]. apply ok_last. intros j t Rj Q. destruct (i_map _ _ V _ _ Q) as [A _]. apply (Hl j t); [lia|exact Q]. }
  apply G; try lia; intros j t Rj; lia.
Qed.
Lemma smem_inv st f p o : inv st f -> p <> 0 -> ~ is_name max st p -> inv (Astate (upd (smem st) p o) (atbl st) (anb st)) f.
Proof.
  intros V Np Hn. assert (Hu : forall i, 0 <= i < max -> upd (smem st) p o (aname (atbl st i)) = smem st (aname (atbl st i))).
  { intros i R. apply aupd_neq. intros E. apply Hn. now exists i. }
  split; cbn [smem atbl anb].
  - intros i R N. rewrite Hu by auto. exact (i_cell _ _ V i R N).
  - intros s i Q. destruct (i_map _ _ V _ _ Q) as [A [B [C D]]]. rewrite Hu by auto. auto.
  - exact (i_probe _ _ V).
  - exact (i_nb _ _ V).
  - exact (i_len _ _ V).
Qed.
Lemma aop_ok st f o : inv st f -> legal_aop max st o ->
  exists st' l f', run_aop HB max st o = Ret (st', l) /\ inv st' f' /\ evs_ok max f l f'.
Proof.
  intros V Lg. destruct o as [p al a|p|last|i|p s|p]; cbn [run_aop legal_aop] in *.
  - destruct Lg as [Np [Es Ha]]. destruct (smem st p) as [s|] eqn:Ep; [|congruence]. unfold rd_str. rewrite Ep. cbn [bind].
    destruct (Create_ok st f p s al a V Np Ep Ha) as [st' [r [f' [-> [V' E]]]]]. cbn [bind]. eexists _, _, _. split; [reflexivity|].
    split; [exact V'|]. econstructor; [exact E|constructor].
  - destruct (smem st p) as [s|] eqn:Ep; [|congruence]. unfold rd_str. rewrite Ep. cbn [bind].
    destruct (Find_ok st f p s V Ep) as [i [-> E]]. cbn [bind]. eexists _, _, _. split; [reflexivity|]. split; [exact V|]. econstructor; [exact E|constructor].
  - destruct (Next_ok st f last V Lg) as [i [-> E]]. cbn [bind]. eexists _, _, _. split; [reflexivity|]. split; [exact V|]. econstructor; [exact E|constructor].
  - destruct Lg as [R N]. unfold Atom_Name. rewrite rd_cell_ok by auto. cbn [bind]. unfold rd_str.
    destruct (i_cell _ _ V i R N) as [s [-> [_ Q]]]. cbn [bind]. eexists _, _, _. split; [reflexivity|]. split; [exact V|].
    econstructor; [apply ok_name; exact Q|constructor].
  - destruct Lg as [Np Hn]. eexists _, _, _. split; [reflexivity|]. split; [apply smem_inv; eauto|constructor].
  - destruct Lg as [Np Hn]. eexists _, _, _. split; [reflexivity|]. split; [apply smem_inv; eauto|constructor].
Qed.
Lemma evs_app : forall l1 f l2 f1 f2, evs_ok max f l1 f1 -> evs_ok max f1 l2 f2 -> evs_ok max f (l1 ++ l2) f2.
Proof. induction l1 as [|e l IH]; intros f l2 f1 f2 A B; inversion A; subst; cbn [app]; [exact B|]. econstructor; [eauto|]. eapply IH; eauto. Qed.
Lemma aops_ok : forall os st f, inv st f -> legal_aops HB max st os ->
  exists st' l f', run_aops HB max st os = Ret (st', l) /\ inv st' f' /\ evs_ok max f l f'.
Proof.
  induction os as [|o os IH]; intros st f V Lg; cbn [run_aops legal_aops] in *.
  - exists st, [], f. split; [reflexivity|]. split; [exact V|constructor].
  - destruct Lg as [Lo Lg]. destruct (aop_ok st f o V Lo) as [st1 [l1 [f1 [E1 [V1 A1]]]]]. rewrite E1. cbn [bind].
    destruct (IH st1 f1 V1 (Lg _ _ E1)) as [st2 [l2 [f2 [-> [V2 A2]]]]]. cbn [bind]. exists st2, (l1 ++ l2), f2. split; [reflexivity|].
    split; [exact V2|eapply evs_app; eauto].
Qed.
Lemma empty_inv mem : inv (Empty_Table mem) aempty.
Proof.
  split; cbn [Empty_Table atbl smem anb aname ahash].
  - intros. congruence.
  - intros s i Q. discriminate.
  - intros s i Q. discriminate.
  - unfold count. assert (forall l, filter (used (Empty_Table mem)) l = []) as ->; [|reflexivity].
    induction l as [|x l IH]; cbn; auto.
  - intros s i Q. discriminate.
Qed.

(** ** The initial atoms *)
Lemma Create_home st f p s : inv st f -> p <> 0 -> smem st p = Some s -> f s = None -> aname (atbl st (H s mod max)) = 0 ->
  exists st', create_at HB max st p = Ret (st', Atom (H s mod max)) /\ inv st' (aset f s (H s mod max)) /\ smem st' = smem st.
Proof.
  intros V Np Ep Fs Ec. unfold create_at, Create, rd_str. rewrite Ep. cbn [bind]. destruct (Locate_ok st f s V) as [r [-> Hr]]. cbn [bind].
  assert (R : 0 <= H s mod max < max) by (apply Z.mod_pos_bound; lia).
  destruct r as [i|]; [|destruct Hr as [_ Hu]; exfalso; exact (Hu _ R Ec)]. destruct Hr as [Ri [Q|[_ [Ei [k [Rk [Eq Hk]]]]]]]; [congruence|].
  assert (Ehome : i = H s mod max).
  { destruct (Z.eq_dec k 0) as [->|Nk]; [rewrite at_0 in Eq; auto|]. exfalso. apply (Hk 0 ltac:(lia)). now rewrite at_0. }
  clear Eq. rewrite Ehome in *. destruct (Add_ok st f p s false 0 _ V R Ep Np ltac:(discriminate) Fs Ec) as [st' [E [V' _]]].
  { exists 0. split; [lia|]. split; [now rewrite at_0|intros; lia]. }
  exists st'. split; [exact E|]. split; [exact V'|]. unfold Add_Atom in E. rewrite rd_cell_ok in E by auto. cbn [bind] in E.
  rewrite Ec in E. cbn in E. inversion E. reflexivity.
Qed.
Lemma Create_old st f p s i : inv st f -> smem st p = Some s -> f s = Some i -> create_at HB max st p = Ret (st, Atom i).
Proof.
  intros V Ep Q. unfold create_at, Create, rd_str. rewrite Ep. cbn [bind]. destruct (Locate_ok st f s V) as [r [-> Hr]]. cbn [bind].
  destruct r as [j|]; [|destruct Hr; congruence]. destruct Hr as [Rj [Q'|[Q' _]]]; [|congruence]. assert (j = i) by congruence. subst j.
  destruct (i_map _ _ V _ _ Q) as [_ [N _]]. unfold Add_Atom. rewrite rd_cell_ok by auto. cbn [bind].
  now destruct (Z.eqb_spec (aname (atbl st i)) 0).
Qed.
Definition char_str (i : Z) : str := if i =? 0 then [] else [i].
Definition chars_upto (f : amap) (n : Z) : Prop :=
  (forall c, 0 <= c < n -> f (char_str c) = Some c) /\ (forall t j, f t = Some j -> 0 <= j < n /\ t = char_str j).
Lemma char_home i : 0 <= i < 256 -> 257 <= max -> H (char_str i) mod max = i.
Proof. intros R M. unfold char_str. destruct (Z.eqb_spec i 0) as [->|]; [reflexivity|]. cbn. apply Z.mod_small; lia. Qed.
Lemma init_chars_ok : 257 <= max -> forall n st f str_char i mem, inv st f -> smem st = mem -> (forall j, 0 <= j < 256 -> str_char j <> 0 /\ mem (str_char j) = Some (char_str j)) ->
  0 <= i -> i + Z.of_nat n = 256 -> chars_upto f i ->
  exists st' f', init_chars HB max n str_char i st = Ret (Some st') /\ inv st' f' /\ smem st' = mem /\ chars_upto f' 256.
Proof.
  intros M. induction n as [|n IH]; intros st f str_char i mem V Em Hs Ri Ln Hc; cbn [init_chars].
  - assert (i = 256) by lia. subst i. exists st, f. auto.
  - destruct (Hs i ltac:(lia)) as [Np Ep]. rewrite <- Em in Ep.
    assert (Hh : H (char_str i) mod max = i) by (apply char_home; lia).
    assert (Fn : f (char_str i) = None).
    { destruct (f (char_str i)) as [j|] eqn:Q; [|reflexivity]. destruct (proj2 Hc _ _ Q) as [R E]. exfalso. unfold char_str in E.
      destruct (Z.eqb_spec i 0), (Z.eqb_spec j 0); try discriminate; try lia. injection E. lia. }
    destruct (Create_home st f (str_char i) (char_str i) V Np Ep Fn) as [st' [E [V' Em']]].
    { rewrite Hh. destruct (Z.eq_dec (aname (atbl st i)) 0) as [|N]; auto. exfalso.
      destruct (i_cell _ _ V i ltac:(lia) N) as [t [_ [_ Q]]]. destruct (proj2 Hc _ _ Q). lia. }
    rewrite E. cbn [bind]. rewrite Hh in V'. apply (IH st' _ str_char (i + 1) mem V'); auto; try lia; [congruence|].
    split.
    + intros c Rc. destruct (Z.eq_dec c i) as [->|N]; [apply aset_eq|]. rewrite aset_neq; [apply (proj1 Hc); lia|].
      unfold char_str. destruct (Z.eqb_spec c 0), (Z.eqb_spec i 0); try discriminate; try lia. congruence.
    + intros t j Q. destruct (list_eq_dec Z.eq_dec t (char_str i)) as [->|N].
      * rewrite aset_eq in Q. assert (j = i) by congruence. subst j. split; [lia|auto].
      * rewrite aset_neq in Q by auto. destruct (proj2 Hc _ _ Q). split; [lia|auto].
Qed.
Lemma Init_ok mem str_char nil void : 257 <= max ->
  (forall j, 0 <= j < 256 -> str_char j <> 0 /\ mem (str_char j) = Some (char_str j)) ->
  nil <> 0 -> mem nil = Some [91; 93] -> mem void = Some [] ->
  exists st f, Init_Atom HB max mem str_char nil void = Ret (Some (st, 0)) /\ inv st f /\
    f [] = Some 0 /\ (forall c, 1 <= c <= 255 -> f [c] = Some c) /\ f [91; 93] = Some 256.
Proof.
  intros M Hs Nn En Ev. unfold Init_Atom.
  destruct (init_chars_ok M 256 (Empty_Table mem) aempty str_char 0 mem (empty_inv mem) eq_refl Hs ltac:(lia) ltac:(lia)) as [st [f [-> [V [Em Hc]]]]].
  { split; [intros; lia|]. intros t j Q. discriminate. }
  cbn [bind]. assert (Fn : f [91; 93] = None).
  { destruct (f [91; 93]) as [j|] eqn:Q; [|reflexivity]. destruct (proj2 Hc _ _ Q) as [R E]. unfold char_str in E. destruct (j =? 0); discriminate. }
  assert (Hh : H [91; 93] mod max = 256) by (apply Z.mod_small; cbn; unfold ATOM_NIL; lia).
  rewrite <- Em in En, Ev.
  destruct (Create_home st f nil [91; 93] V Nn En Fn) as [st' [E [V' Em']]].
  { rewrite Hh. destruct (Z.eq_dec (aname (atbl st 256)) 0) as [|N]; auto. exfalso.
    destruct (i_cell _ _ V 256 ltac:(lia) N) as [t [_ [_ Q]]]. destruct (proj2 Hc _ _ Q). lia. }
  rewrite E, Hh. cbn [bind]. unfold ATOM_NIL. cbn [Z.eqb Pos.eqb negb]. rewrite Hh in V'. rewrite <- Em' in Ev.
  assert (F0 : aset f [91; 93] 256 [] = Some 0) by (rewrite aset_neq by discriminate; apply (proj1 Hc 0); lia).
  rewrite (Create_old st' _ void [] 0 V' Ev F0). cbn [bind]. exists st', (aset f [91; 93] 256). split; [reflexivity|]. split; [exact V'|].
  split; [exact F0|]. split; [|apply aset_eq]. intros c Rc. rewrite aset_neq by discriminate.
  replace [c] with (char_str c); [apply (proj1 Hc); lia|]. unfold char_str. now destruct (Z.eqb_spec c 0); [lia|].
Qed.

(** ** gensym *)
Lemma not_full st f : inv st f -> anb st < max -> (forall i, 0 <= i < max -> aname (atbl st i) <> 0) -> False.
Proof.
  intros V Ln Hu. rewrite (i_nb _ _ V) in Ln. unfold count in Ln.
  assert (filter (used st) cells = cells) as E.
  { assert (G : forall l, (forall i, In i l -> used st i = true) -> filter (used st) l = l).
    { induction l as [|x l IH2]; intros Q; [reflexivity|]. cbn [filter]. rewrite (Q x) by now left. f_equal. apply IH2. intros; apply Q; now right. }
    apply G. intros i I. apply in_cells in I. unfold used. now destruct (Z.eqb_spec (aname (atbl st i)) 0) as [Q|]; [destruct (Hu i I Q)|]. }
  rewrite E in Ln. unfold cells in Ln. rewrite map_length, seq_length in Ln. lia.
Qed.
Lemma gen_loop_ok st f rand n s : inv st f -> anb st < max -> (n <= 1023)%nat -> (forall suf, length (s ++ suf) = n -> f (s ++ suf) = None) ->
  forall fuel k mid, (length (s ++ mid) < n)%nat -> (n - length (s ++ mid) <= fuel)%nat ->
  exists suf i, gen_loop HB max fuel st rand k (s ++ mid) = Ret (s ++ suf, i) /\ suf <> [] /\ f (s ++ suf) = None /\ 0 <= i < max /\ aname (atbl st i) = 0 /\
    exists k, 0 <= k < max /\ i = at_ (H (s ++ suf) mod max) k /\ forall j, 0 <= j < k -> aname (atbl st (at_ (H (s ++ suf) mod max) j)) <> 0.
Proof.
  intros V Ln Bn Hn. induction fuel as [|fuel IH]; intros k mid Lm Lf; [lia|].
  cbn [gen_loop]. destruct (Nat.ltb_spec 1023 (length (s ++ mid) + 1)); [lia|].
  set (c := gen_sym_char (rand k mod 62)). rewrite <- (app_assoc s mid [c]). destruct (Locate_ok st f (s ++ mid ++ [c]) V) as [r [-> Hr]]. cbn [bind].
  assert (Lc : length (s ++ mid ++ [c]) = S (length (s ++ mid))) by (rewrite !app_length; cbn; lia).
  destruct r as [i|].
  - destruct Hr as [R [Q|[Fs [Ec Pr]]]]; rewrite rd_cell_ok by auto; cbn [bind].
    + destruct (i_map _ _ V _ _ Q) as [_ [N _]]. destruct (Z.eqb_spec (aname (atbl st i)) 0); [contradiction|].
      apply IH; [|lia]. destruct (Nat.eq_dec (length (s ++ mid ++ [c])) n) as [E|]; [|lia]. rewrite (Hn _ E) in Q. discriminate.
    + rewrite Ec, Z.eqb_refl. exists (mid ++ [c]), i. split; [reflexivity|]. split; [now destruct mid|]. auto.
  - destruct Hr as [_ Hu]. exfalso. exact (not_full st f V Ln Hu).
Qed.
Lemma Gen_ok st f rand p s a fuel n : inv st f -> anb st < max -> smem st p = Some s -> a <> 0 -> smem st a = None ->
  (length s < n <= 1023)%nat -> (1023 <= fuel)%nat -> (forall suf, length (s ++ suf) = n -> f (s ++ suf) = None) ->
  exists st' i suf, Gen_New_Atom HB max fuel st rand p a = Ret (st', Atom i) /\ suf <> [] /\ f (s ++ suf) = None /\ (forall t, f t <> Some i) /\ 0 <= i < max /\
    inv st' (aset f (s ++ suf) i).
Proof.
  intros V Ln Ep Na Fa Bn Lf Hn. unfold Gen_New_Atom. destruct (Z.leb_spec max (anb st)); [lia|]. unfold rd_str. rewrite Ep. cbn [bind].
  destruct (Nat.ltb_spec 1023 (length s)); [lia|].
  destruct (gen_loop_ok st f rand n s V Ln ltac:(lia) Hn fuel 0%nat []) as [suf [i [E0 [Ns [Fn [R [Ec Pr]]]]]]]; [rewrite app_nil_r; lia|lia|].
  rewrite app_nil_r in E0. rewrite E0. cbn [bind].
  (* the name is copied: give the string an address of its own *)
  set (st1 := Astate (upd (smem st) a (Some (s ++ suf))) (atbl st) (anb st)).
  assert (Hi : ~ is_name max st a).
  { intros [x [Rx E]]. destruct (Z.eq_dec (aname (atbl st x)) 0) as [Q|N]; [congruence|]. destruct (i_cell _ _ V x Rx N) as [t [Q _]]. congruence. }
  assert (V1 : inv st1 f) by (apply smem_inv; auto).
  destruct (Add_ok st1 f a (s ++ suf) false 0 i V1 R ltac:(apply aupd_eq) Na ltac:(discriminate) Fn Ec Pr) as [st' [E [V' [_ Hf]]]].
  exists st', i, suf. split; [|auto]. unfold Add_Atom in E |- *. rewrite rd_cell_ok in E |- * by auto. cbn [bind] in E |- *.
  cbn [st1 atbl anb smem] in E. rewrite Ec in E |- *. cbn [Z.eqb negb] in E |- *. exact E.
Qed.
End P.

(** ** Consequences of the specification *)
Lemma ev_mono max f e f' s i : ev_ok max f e f' -> f s = Some i -> f' s = Some i.
Proof. intros A Q. inversion A; subst; auto. destruct (list_eq_dec Z.eq_dec s s0) as [->|N]; [congruence|]. now rewrite aset_neq. Qed.
Lemma evs_mono max : forall l f f' s i, evs_ok max f l f' -> f s = Some i -> f' s = Some i.
Proof. induction l as [|e l IH]; intros f f' s i A Q; inversion A; subst; auto. eapply IH; eauto. eapply ev_mono; eauto. Qed.
Lemma evs_created max : forall l f f' s i, evs_ok max f l f' -> In (ECreate s (Atom i)) l -> f' s = Some i.
Proof.
  induction l as [|e l IH]; intros f f' s i A I; [destruct I|]. inversion A as [|? ? f1 ? ? A1 A2]; subst. destruct I as [->|I]; [|eapply IH; eauto].
  eapply evs_mono; eauto. inversion A1; subst; [auto|apply aset_eq].
Qed.

Lemma ev_fun max f e f1 f2 : ev_ok max f e f1 -> ev_ok max f e f2 -> f1 = f2.
Proof. intros A B. inversion A; subst; inversion B; subst; auto; congruence. Qed.
Lemma evs_fun max : forall l f f1 f2, evs_ok max f l f1 -> evs_ok max f l f2 -> f1 = f2.
Proof.
  induction l as [|e l IH]; intros f f1 f2 A B; inversion A as [|? ? g1 ? ? A1 A2]; subst; inversion B as [|? ? g2 ? ? B1 B2]; subst; auto.
  rewrite <- (ev_fun _ _ _ _ _ A1 B1) in B2. eapply IH; eauto.
Qed.
