(** Theorems about the generic hash table (C21) and about the operator table and its
    enumeration by current_op/3 (C49). *)
Require Import ZArith List Bool Lia.
Require Import Verif.Heap_Model Verif.Hash_Model Verif.Hash_Spec Verif.Hash_Client Verif.Hash_Proofs Verif.Hash_Proofs2 Verif.Hash_Proofs3 Verif.Hash_Proofs4.
Require Import Verif.Oper_Model Verif.Oper_Proofs Verif.Hash_Example.
Import ListNotations.
Open Scope Z_scope.

(** * C21: the table is a finite map after any history of operations *)
Theorem C21_history :
  forall m0 size a0 os fuel, 1 <= size <= INT_MAX -> hblocks m0 a0 = None -> (length os < fuel)%nat ->
  exists m1, Alloc_Table m0 size a0 = Ret (m1, a0) /\
  (legal_ops fuel m1 a0 os ->
   exists m b, run_ops fuel m1 a0 os = Ret (m, b) /\
     (* Pl_HTBL_Find: the element of the key or NULL *)
     (forall k, exists p, Find fuel m b k = Ret p /\
        match spec_ops m_empty os k with
        | Some v => p <> 0 /\ exists n, hnodes m p = Some (Node n k v)
        | None => p = 0
        end) /\
     (* Pl_HTBL_Delete: says whether the key was there *)
     (forall k, exists m', Delete fuel m b k = Ret (m', match spec_ops m_empty os k with Some _ => true | None => false end)) /\
     (* nb_elem is the number of elements *)
     (exists x, hblocks m b = Some x /\ m_card (spec_ops m_empty os) (bnb x)) /\
     (* a scan gives every element once *)
     (forall n, (length os <= n)%nat -> exists l, scan_table n fuel m b [] = Ret (l, true, m) /\ m_list (spec_ops m_empty os) l)).
Proof.
  intros m0 size a0 os fuel Ls Fr L. destruct (Alloc_own m0 size a0 Ls Fr) as [m1 [cs1 [E1 [T1 [W1 C1]]]]]. exists m1. split; [exact E1|].
  intros Lg. destruct (ops_ok os m1 a0 m_empty cs1 fuel T1) as [m [b [cs [E [T Lc]]]]]; [rewrite C1; cbn; lia|exact Lg|].
  rewrite C1 in Lc. cbn [length] in Lc. exists m, b. split; [exact E|]. split; [|split; [|split]].
  - intros k. destruct (Find_ok m b _ cs k fuel T ltac:(lia)) as [p [Ef Hp]]. exists p. split; [exact Ef|].
    destruct (spec_ops m_empty os k); [tauto|exact Hp].
  - intros k. destruct (Delete_ok m b _ cs k fuel T ltac:(lia)) as [m' [r [cs' [Ed [_ [_ [Er _]]]]]]]. exists m'. now rewrite Ed, Er.
  - destruct (tbl_size_rd _ _ _ _ T) as [x [Rx [_ Sx]]]. exists x. split; [unfold rd_block in Rx; destruct (hblocks m b); congruence|].
    exists (kv (concat cs)). split; [exact (tbl_list _ _ _ _ T)|]. unfold kv. rewrite map_length. now symmetry.
  - intros n Ln. destruct (scan_table_ok n m b _ cs [] fuel T) as [l [fin [m' [Es [ND [A [B [_ Tf]]]]]]]].
    + intros p sc _. apply legal_visit_nil.
    + cbn. lia.
    + specialize (Tf ltac:(cbn; lia)). subst fin. exists l. split.
      * rewrite Es. do 2 f_equal. assert (Hm : forall n p s l m', visit n fuel m b p s [] = Ret (l, true, m') -> m' = m).
        { clear. induction n as [|n IH]; intros p s l m' Q; cbn [visit] in Q; destruct (p =? 0); try congruence. cbn [hd tl run_ops bind] in Q.
          destruct (rd_node m p); cbn [bind] in Q; try discriminate. destruct (Next m s) as [[p' s']| |]; cbn [bind] in Q; try discriminate.
          destruct (visit n fuel m b p' s' []) as [[[l1 f1] m1]| |] eqn:V; cbn [bind] in Q; try discriminate. inversion Q; subst. eauto. }
        unfold scan_table in Es. destruct (First m b) as [[p s]| |]; cbn [bind] in Es; try discriminate. eauto.
      * split; [exact ND|]. intros k v. split.
        -- intros Q. assert (In k (map fst l)) as I by (apply A; congruence). apply in_map_iff in I as [[k' v'] [Ek I]]. cbn in Ek. subst k'.
           destruct (B k v' I) as [Q'|[r [a []]]]. assert (v = v') by congruence. now subst.
        -- intros I. destruct (B k v I) as [Q|[r [a []]]]. exact Q.
Qed.

(** freeing the table gives back exactly the memory there was before it was allocated:
    nothing leaks, nothing else is touched *)
Theorem C21_free :
  forall m0 size a0 m1 os fuel m b, 1 <= size <= INT_MAX -> hblocks m0 a0 = None -> (length os < fuel)%nat ->
  Alloc_Table m0 size a0 = Ret (m1, a0) -> legal_ops fuel m1 a0 os -> run_ops fuel m1 a0 os = Ret (m, b) ->
  exists m', Free_Table fuel m b = Ret m' /\ (forall x, hnodes m' x = hnodes m0 x) /\ (forall x, hblocks m' x = hblocks m0 x).
Proof.
  intros m0 size a0 m1 os fuel m b Ls Fr L Ea Lg Er. destruct (Alloc_own m0 size a0 Ls Fr) as [m2 [cs2 [E2 [T2 [W2 C2]]]]].
  assert (m2 = m1) by congruence. subst m2.
  destruct (ops_own os m0 m1 a0 m_empty cs2 fuel T2 W2) as [m3 [b3 [cs3 [E3 [T3 [W3 L3]]]]]]; [rewrite C2; cbn; lia|exact Lg|].
  rewrite Er in E3. inversion E3; subst m3 b3. rewrite C2 in L3. cbn [length] in L3. exact (Free_own m0 m b _ cs3 fuel T3 W3 ltac:(lia)).
Qed.

(** a scan whose body changes the table: insertions of keys not yet seen (or replacement)
    and deletions of keys already seen.  Every key gives at most one element; every key
    that was in the table at the beginning is given if the scan ends; it ends. *)
Theorem C21_scan :
  forall m0 size a0 m1 os fuel m b, 1 <= size <= INT_MAX -> hblocks m0 a0 = None ->
  Alloc_Table m0 size a0 = Ret (m1, a0) -> legal_ops fuel m1 a0 os -> run_ops fuel m1 a0 os = Ret (m, b) ->
  forall n script, (length (concat script) + length os < fuel)%nat -> legal_scan n fuel m b (spec_ops m_empty os) script ->
  exists l fin m', scan_table n fuel m b script = Ret (l, fin, m') /\ NoDup (map fst l) /\
    (fin = true -> forall k, spec_ops m_empty os k <> None -> In k (map fst l)) /\
    (forall k v, In (k, v) l -> spec_ops m_empty os k = Some v \/ exists r a, In (OInsert k v r a) (concat script)) /\
    (forall k, exists p, Find fuel m' b k = Ret p /\
       match spec_ops m_empty (os ++ concat (firstn (length l) script)) k with
       | Some v => p <> 0 /\ exists n, hnodes m' p = Some (Node n k v)
       | None => p = 0
       end) /\
    ((length (concat script) + length os <= n)%nat -> fin = true).
Proof.
  intros m0 size a0 m1 os fuel m b Ls Fr Ea Lg Er n script Lf Lscan. destruct (Alloc_own m0 size a0 Ls Fr) as [m2 [cs2 [E2 [T2 [W2 C2]]]]].
  assert (m2 = m1) by congruence. subst m2.
  destruct (ops_ok os m1 a0 m_empty cs2 fuel T2) as [m3 [b3 [cs3 [E3 [T3 L3]]]]]; [rewrite C2; cbn; lia|exact Lg|].
  rewrite Er in E3. inversion E3; subst m3 b3. rewrite C2 in L3. cbn [length] in L3.
  destruct (scan_table_ok n m b _ cs3 script fuel T3 Lscan ltac:(lia)) as [l [fin [m' [Es [ND [A [B [[cs' T'] Tf]]]]]]]].
  exists l, fin, m'. split; [exact Es|]. split; [exact ND|]. split; [exact A|]. split; [exact B|]. split.
  - intros k. unfold spec_ops at 1. rewrite fold_left_app. fold (spec_ops m_empty os). fold (spec_ops (spec_ops m_empty os) (concat (firstn (length l) script))).
    assert (Lt : (length (concat cs') < fuel)%nat).
    { pose proof (tbl_bound _ _ _ _ _ _ _ _ T3 T') as Q. pose proof (firstn_concat_len (length l) script). lia. }
    destruct (Find_ok m' b _ cs' k fuel T' Lt) as [p [Ef Hp]]. exists p. split; [exact Ef|].
    destruct (spec_ops (spec_ops m_empty os) (concat (firstn (length l) script)) k); [tauto|exact Hp].
  - intros Q. apply Tf. lia.
Qed.

(** asking for size 0: the size becomes 1 ("at least one cell in a table") but after the
    array has been allocated, with no cell; the first insertion is out of bounds *)
Theorem C21_zero_size_refuted :
  exists m0 a0 m1, hblocks m0 a0 = None /\ Alloc_Table m0 0 a0 = Ret (m1, a0) /\
    forall fuel k v r a, Insert (S fuel) m1 a0 k v r a = UB.
Proof.
  exists (Hmem (fun _ => None) (fun _ => None)), 1. eexists. split; [reflexivity|]. split; [reflexivity|].
  intros. unfold Insert. cbn -[Z.modulo]. unfold Hash_Locate, Hash_Function. cbn -[Z.modulo]. rewrite Z.mod_1_r. reflexivity.
Qed.

(** * C49: the operator table *)
(** after any history of op/3 the table is the operators, and the bits op_mask agree:
    Pl_Lookup_Oper finds an operator exactly if it is defined; current_op/3 with no change
    between its solutions gives exactly the operators, each once *)
Theorem C49_history_partial :
  forall m0 size a0 os fuel, 1 <= size <= INT_MAX -> (length os < fuel)%nat ->
  exists s0, Init_Oper m0 size a0 = Ret s0 /\
  (legal_oops fuel s0 os ->
   exists s, op3s fuel s0 os = Ret s /\
     (forall a t, 0 <= a -> 0 <= t <= 2 -> exists p, Lookup_Oper fuel s a t = Ret p /\
        match spec_oops m_empty os (Make_Oper_Key a t) with
        | Some v => exists n, hnodes (om s) p = Some (Node n (Make_Oper_Key a t) v)
        | None => p = 0
        end) /\
     (forall a, 0 <= a -> spec_oops m_empty os (Make_Oper_Key a POSTFIX) = None \/ spec_oops m_empty os (Make_Oper_Key a INFIX) = None ->
        enum_atom fuel s a = Ret (types_of (spec_oops m_empty os) a)) /\
     (forall n, (length os <= n)%nat -> exists l, enum_all n fuel s = Ret l /\ m_list (spec_oops m_empty os) l)).
Proof.
  intros m0 size a0 os fuel Ls L. destruct (Init_ok m0 size a0 Ls) as [s0 [cs0 [E0 [V0 C0]]]]. exists s0. split; [exact E0|].
  intros Lg. destruct (oops_ok os s0 m_empty cs0 fuel V0 Lg) as [s [cs [E [V Lc]]]]; [rewrite C0; cbn; lia|].
  rewrite C0 in Lc. cbn [length] in Lc. exists s. split; [exact E|]. split; [|split].
  - intros a t Ra Rt. exact (Lookup_ok s _ cs a t fuel V ltac:(lia) Ra Rt).
  - intros a Ra NB. exact (enum_atom_ok s _ cs a fuel V ltac:(lia) Ra NB).
  - intros n Ln. exact (enum_all_ok s _ cs n fuel V ltac:(lia) ltac:(lia)).
Qed.

(** op/3 between two solutions of current_op/3 breaks it, three ways: [setup], a first
    solution of current_op/3 for [name], [between], and asking for the next solution is
    undefined.  The table is the one of Pl_Init_Oper (1024 slots); all calls of op/3 are
    legal. *)
Definition breaks (setup : list oop) (name : option Z) (between : list oop) : Prop :=
  exists fuel s0 s1 s2 k v c, Init_Oper empty_mem START_OPER_TBL_SIZE 1 = Ret s0 /\
    legal_oops fuel s0 (setup ++ between) /\ op3s fuel s0 setup = Ret s1 /\
    Current_Op fuel s1 name = Ret (Some (k, v, Some c)) /\ op3s fuel s1 between = Ret s2 /\
    Current_Op_Alt fuel s2 c = UB.
Definition breaksb (fuel : nat) (setup : list oop) (name : option Z) (between : list oop) : bool :=
  match Init_Oper empty_mem START_OPER_TBL_SIZE 1 with
  | Ret s0 => legal_oopsb fuel s0 (setup ++ between) &&
    match op3s fuel s0 setup with
    | Ret s1 => match Current_Op fuel s1 name with
      | Ret (Some (k, v, Some c)) => match op3s fuel s1 between with
        | Ret s2 => match Current_Op_Alt fuel s2 c with UB => true | _ => false end
        | _ => false end
      | _ => false end
    | _ => false end
  | _ => false
  end.
Lemma breaksb_spec fuel setup name between : breaksb fuel setup name between = true -> breaks setup name between.
Proof.
  unfold breaksb, breaks. destruct (Init_Oper empty_mem START_OPER_TBL_SIZE 1) as [s0| |]; try discriminate. intros Q. apply andb_true_iff in Q as [Q1 Q2].
  apply legal_oopsb_spec in Q1. destruct (op3s fuel s0 setup) as [s1| |] eqn:E1; try discriminate.
  destruct (Current_Op fuel s1 name) as [[[[k v] [c|]]|]| |] eqn:E2; try discriminate.
  destruct (op3s fuel s1 between) as [s2| |] eqn:E3; try discriminate. destruct (Current_Op_Alt fuel s2 c) eqn:E4; try discriminate.
  exists fuel, s0, s1, s2, k, v, c. auto 10.
Qed.
(** (a) current_op(P, T, -), then op(0, yfx, -): the saved mask says INFIX, the operator is
    gone, Pl_Lookup_Oper gives NULL and oper->prec is read *)
Theorem C49_atom_refuted : breaks [OAdd 45 PREFIX 200 5 11; OAdd 45 INFIX 500 5 12] (Some 45) [ODel 45 INFIX].
Proof. apply (breaksb_spec 10). vm_compute. reflexivity. Qed.
(** (b) current_op(P, T, N), then removal of the operator that is next in its chain: the
    freed element is read *)
Theorem C49_delete_refuted : breaks [OAdd 300 PREFIX 200 5 11; OAdd 556 PREFIX 500 5 12] None [ODel 556 PREFIX].
Proof. apply (breaksb_spec 10). vm_compute. reflexivity. Qed.
(** (c) with 1024 operators, current_op(P, T, N), then the definition of one more: the
    table is reallocated, the scan reads the array that was freed *)
Definition many : list oop :=
  OAdd 256 PREFIX 200 5 10 ::
  map (fun i => OAdd (257 + (i / 2) + (i / 2) / 255) (if i mod 2 =? 0 then PREFIX else INFIX) 200 5 (11 + i)) (map Z.of_nat (seq 0 1023)).
Theorem C49_resize_refuted : breaks many None [OAdd 900 PREFIX 200 5 2000].
Proof. apply (breaksb_spec 2000). vm_compute. reflexivity. Qed.

(** * Examples *)
Definition ex_ops : list op := [OInsert 1 10 false 11; OInsert 5 50 false 12; OInsert 9 90 false 13; OInsert (-3) 7 false 14;
  OInsert 5 51 true 15; OInsert 9 91 false 16; OExtend 2; ODelete 1; OInsert 2 20 false 17; ORealloc 3 3; ODelete 77].
Example C21_ex_legal : exists m1, Alloc_Table empty_mem 4 1 = Ret (m1, 1) /\ legal_ops 20 m1 1 ex_ops.
Proof. eexists. split; [reflexivity|]. apply legal_opsb_spec. vm_compute. reflexivity. Qed.
Example C21_ex : match Alloc_Table empty_mem 4 1 with
  | Ret (m1, b1) => match run_ops 20 m1 b1 ex_ops with
    | Ret (m, b) => b = 3 /\ match scan_table 20 20 m b [] with Ret (l, fin, _) => l = [(9, 90); (-3, 7); (2, 20); (5, 51)] /\ fin = true | _ => False end
    | _ => False end
  | _ => False end.
Proof. vm_compute. auto. Qed.
(** a scan that deletes what it has seen and inserts ahead *)
Definition ex_script : list (list op) := [[ODelete 0]; [OInsert 6 60 false 21; ODelete 1]; [OInsert 2 22 true 22]].
Definition ex_ops2 : list op := [OInsert 0 1 false 11; OInsert 1 2 false 12; OInsert 2 3 false 13].
Definition scan_exb : bool :=
  match Alloc_Table empty_mem 4 1 with
  | Ret (m1, b1) => (b1 =? 1) && legal_opsb 20 m1 1 ex_ops2 &&
    match run_ops 20 m1 1 ex_ops2 with
    | Ret (m, b) => (b =? 1) &&
      match First m 1 with
      | Ret (p, s) => legal_visitb 20 20 m 1 (spec_ops m_empty ex_ops2) [] p s ex_script &&
        match scan_table 20 20 m 1 ex_script with
        | Ret ([(0, 1); (1, 2); (2, 3); (6, 60)], true, _) => true
        | _ => false end
      | _ => false end
    | _ => false end
  | _ => false end.
Example C21_scan_ex :
  exists m1 m, Alloc_Table empty_mem 4 1 = Ret (m1, 1) /\ legal_ops 20 m1 1 ex_ops2 /\ run_ops 20 m1 1 ex_ops2 = Ret (m, 1) /\
    legal_scan 20 20 m 1 (spec_ops m_empty ex_ops2) ex_script.
Proof.
  assert (Q : scan_exb = true) by (vm_compute; reflexivity). unfold scan_exb in Q.
  destruct (Alloc_Table empty_mem 4 1) as [[m1 b1]| |]; try discriminate. apply andb_true_iff in Q as [Q Q2]. apply andb_true_iff in Q as [Q0 Q1].
  apply Z.eqb_eq in Q0. subst b1. destruct (run_ops 20 m1 1 ex_ops2) as [[m b]| |] eqn:E; try discriminate. apply andb_true_iff in Q2 as [Q2 Q3].
  apply Z.eqb_eq in Q2. subst b. exists m1, m. split; [reflexivity|]. split; [now apply legal_opsb_spec|]. split; [exact E|].
  intros p s F. rewrite F in Q3. apply andb_true_iff in Q3 as [Q3 _]. now apply legal_visitb_spec.
Qed.
Definition ex_oops : list oop := [OAdd 45 PREFIX 200 20 11; OAdd 45 INFIX 500 21 12; OAdd 43 INFIX 500 22 13; ODel 43 INFIX; OAdd 300 POSTFIX 100 23 14; OAdd 45 PREFIX 201 24 15].
Example C49_ex : exists s0, Init_Oper empty_mem 2 1 = Ret s0 /\ legal_oops 20 s0 ex_oops /\
  match op3s 20 s0 ex_oops with
  | Ret s => enum_atom 20 s 45 = Ret [(180, 201); (182, 500)] /\ enum_all 20 20 s = Ret [(180, 201); (1201, 100); (182, 500)]
  | _ => False end.
Proof. eexists. split; [reflexivity|]. split; [apply legal_oopsb_spec; vm_compute; reflexivity|]. vm_compute. auto. Qed.

Print Assumptions C21_history.
Print Assumptions C21_free.
Print Assumptions C21_scan.
Print Assumptions C21_zero_size_refuted.
Print Assumptions C49_history_partial.
Print Assumptions C49_atom_refuted.
Print Assumptions C49_delete_refuted.
Print Assumptions C49_resize_refuted.
