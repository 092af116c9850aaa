(** Proofs about the operator table (C49). *)
Require Import ZArith List Bool Lia Permutation.
Require Import Verif.Heap_Model Verif.Hash_Model Verif.Hash_Spec Verif.Hash_Client Verif.Hash_Proofs Verif.Hash_Proofs2 Verif.Hash_Proofs3.
Require Import Verif.Oper_Model.
Import ListNotations.
Open Scope Z_scope.

(** the operators after op/3 *)
Definition spec_oop (f : map_) (o : oop) : map_ :=
  match o with
  | OAdd atom type v _ _ => m_set f (Make_Oper_Key atom type) v
  | ODel atom type => m_del f (Make_Oper_Key atom type)
  end.
Definition spec_oops (f : map_) (os : list oop) : map_ := fold_left spec_oop os f.
Definition oop_range (o : oop) : Prop :=
  match o with OAdd atom type _ _ _ | ODel atom type => 0 <= atom /\ 0 <= type <= 2 end.
(** the allocators return free blocks, the table does not grow beyond an int *)
Definition legal_oop (s : ostate) (o : oop) : Prop :=
  oop_range o /\
  match o with
  | OAdd _ _ _ a1 a2 => hblocks (om s) a1 = None /\ hnodes (om s) a2 = None /\ a2 <> 0 /\
      forall x, hblocks (om s) (ob s) = Some x -> bsize x * 2 <= INT_MAX
  | ODel _ _ => True
  end.
Fixpoint legal_oops (fuel : nat) (s : ostate) (os : list oop) : Prop :=
  match os with [] => True | o :: os => legal_oop s o /\ forall s', op3 fuel s o = Ret s' -> legal_oops fuel s' os end.

Record oinv (s : ostate) (f : map_) (cs : list ch) : Prop := {
  oi_tbl : tbl (om s) (ob s) f cs;
  oi_mask : forall a t, 0 <= a -> 0 <= t <= 2 -> (omask s a t = true <-> f (Make_Oper_Key a t) <> None)
}.
Lemma key_inj a t a' t' : 0 <= t <= 2 -> 0 <= t' <= 2 -> Make_Oper_Key a t = Make_Oper_Key a' t' -> a = a' /\ t = t'.
Proof. unfold Make_Oper_Key. intros. lia. Qed.
Lemma m_insert_true f k v x : m_insert f k v true x = m_set f k v x.
Proof. unfold m_insert. destruct (f k); reflexivity. Qed.
Lemma tbl_ext m b f g cs : tbl m b f cs -> (forall x, g x = f x) -> tbl m b g cs.
Proof. intros T E. split; [exact (t_rep _ _ _ _ T)|exact (t_pure _ _ _ _ T)|]. intros k v. rewrite E. apply (t_map _ _ _ _ T). Qed.
Lemma oop_ok s f cs o fuel : oinv s f cs -> legal_oop s o -> (length (concat cs) < fuel)%nat ->
  exists s' cs', op3 fuel s o = Ret s' /\ oinv s' (spec_oop f o) cs' /\ (length (concat cs') <= S (length (concat cs)))%nat.
Proof.
  intros [T M] [Rg Lg] L. destruct o as [atom type v a1 a2|atom type]; cbn [op3 spec_oop oop_range] in *.
  - destruct Lg as [F1 [F2 [Nz Hs]]]. unfold Create_Oper.
    destruct (tbl_size_rd _ _ _ _ T) as [x [Rx [Sx _]]].
    assert (Hx : exists m1 b1 cs1, Extend_If_Needed fuel (om s) (ob s) a1 = Ret (m1, b1) /\ tbl m1 b1 f cs1 /\ length (concat cs1) = length (concat cs) /\
       hnodes m1 a2 = None).
    { unfold Extend_If_Needed. rewrite Rx. cbn [bind]. destruct (bsize x <=? bnb x); [|exists (om s), (ob s), cs; auto].
      assert (hblocks (om s) (ob s) = Some x) as Hb by (unfold rd_block in Rx; destruct (hblocks (om s) (ob s)); congruence). specialize (Hs x Hb).
      pose proof (r_len _ _ _ _ (t_rep _ _ _ _ T)). pose proof W64_val. pose proof INT_MAX_val.
      destruct (Realloc_ok _ _ _ _ (bsize x * 2) a1 fuel T L ltac:(lia) F1) as [m' [cs' [-> [T' [_ [P' [_ [Hn _]]]]]]]].
      exists m', a1, cs'. split; [reflexivity|]. split; [exact T'|]. split; [now apply Permutation_length|]. rewrite Hn; [auto|].
      intros I. destruct (alloc_addr _ _ _ _ _ T I). congruence. }
    destruct Hx as [m1 [b1 [cs1 [-> [T1 [L1 N1]]]]]]. cbn [bind].
    destruct (op_ok m1 b1 f cs1 (OInsert (Make_Oper_Key atom type) v true a2) fuel T1 ltac:(lia) (conj N1 Nz)) as [m2 [b2 [cs2 [E2 [T2 L2]]]]].
    cbn [run_op] in E2. destruct (Insert fuel m1 b1 (Make_Oper_Key atom type) v true a2) as [[m3 p]| |]; try discriminate. cbn [bind] in E2 |- *.
    inversion E2; subst m3 b2; clear E2. eexists. exists cs2. split; [reflexivity|]. split; [|lia]. split.
    + cbn [om ob]. apply (tbl_ext _ _ _ _ _ T2). intros k. cbn [spec_op]. now rewrite m_insert_true.
    + cbn [omask]. intros a t Ra Rt. unfold set_mask, m_set. destruct (Z.eqb_spec (Make_Oper_Key a t) (Make_Oper_Key atom type)) as [E|N].
      * apply key_inj in E as [-> ->]; [|tauto|tauto]. rewrite !Z.eqb_refl. cbn. split; [discriminate|auto].
      * rewrite <- M by auto. destruct (Z.eqb_spec a atom), (Z.eqb_spec t type); cbn [andb]; try tauto. subst. contradiction.
  - unfold Delete_Oper. destruct (op_ok _ _ f cs (ODelete (Make_Oper_Key atom type)) fuel T L I) as [m2 [b2 [cs2 [E2 [T2 L2]]]]].
    cbn [run_op] in E2. destruct (Delete fuel (om s) (ob s) (Make_Oper_Key atom type)) as [[m3 p]| |]; try discriminate. cbn [bind] in E2 |- *.
    inversion E2; subst m3 b2; clear E2. eexists. exists cs2. split; [reflexivity|]. split; [|lia]. split; [exact T2|].
    cbn [omask]. intros a t Ra Rt. unfold set_mask, m_del. destruct (Z.eqb_spec (Make_Oper_Key a t) (Make_Oper_Key atom type)) as [E|N].
    * apply key_inj in E as [-> ->]; [|tauto|tauto]. rewrite !Z.eqb_refl. cbn. split; [discriminate|]. intros Q. now destruct Q.
    * rewrite <- M by auto. destruct (Z.eqb_spec a atom), (Z.eqb_spec t type); cbn [andb]; try tauto. subst. contradiction.
Qed.
Lemma oops_ok : forall os s f cs fuel, oinv s f cs -> legal_oops fuel s os -> (length os + length (concat cs) < fuel)%nat ->
  exists s' cs', op3s fuel s os = Ret s' /\ oinv s' (spec_oops f os) cs' /\ (length (concat cs') <= length os + length (concat cs))%nat.
Proof.
  induction os as [|o os IH]; intros s f cs fuel V Lg L; cbn [op3s length legal_oops] in *; [exists s, cs; auto|].
  destruct Lg as [Lo Lg]. destruct (oop_ok s f cs o fuel V Lo ltac:(lia)) as [s1 [cs1 [E1 [V1 L1]]]]. rewrite E1. cbn [bind].
  destruct (IH s1 _ cs1 fuel V1 (Lg _ E1) ltac:(lia)) as [s2 [cs2 [-> [V2 L2]]]]. exists s2, cs2. split; [reflexivity|]. split; [exact V2|lia].
Qed.
Lemma Init_ok m size a : 1 <= size <= INT_MAX -> exists s cs, Init_Oper m size a = Ret s /\ oinv s m_empty cs /\ concat cs = [].
Proof.
  intros L. pose proof W64_val. pose proof INT_MAX_val. destruct (Alloc_ok m size a ltac:(lia)) as [m' [cs [E [T [_ [C _]]]]]].
  unfold Init_Oper. rewrite E. cbn [bind]. eexists. exists cs. split; [reflexivity|]. split; [|exact C]. split; [exact T|].
  cbn. unfold m_empty. intros. split; [discriminate|congruence].
Qed.
Lemma Lookup_ok s f cs a t fuel : oinv s f cs -> (length (concat cs) < fuel)%nat -> 0 <= a -> 0 <= t <= 2 ->
  exists p, Lookup_Oper fuel s a t = Ret p /\
    match f (Make_Oper_Key a t) with Some v => exists n, hnodes (om s) p = Some (Node n (Make_Oper_Key a t) v) | None => p = 0 end.
Proof.
  intros V L Ra Rt. unfold Lookup_Oper. destruct (omask s a t) eqn:E; cbn [negb].
  - destruct (Find_ok _ _ _ _ (Make_Oper_Key a t) fuel (oi_tbl _ _ _ V) L) as [p [-> Hp]]. exists p. split; [reflexivity|].
    destruct (f (Make_Oper_Key a t)); [tauto|exact Hp].
  - exists 0. split; [reflexivity|]. destruct (f (Make_Oper_Key a t)) eqn:F; [|reflexivity]. exfalso.
    assert (omask s a t = true) by (apply (oi_mask _ _ _ V a t Ra Rt); congruence). congruence.
Qed.

(** all the solutions of current_op(_, _, atom) when no operator is changed *)
Definition enum_atom (fuel : nat) (s : ostate) (atom : Z) : outcome (list (Z * Z)) :=
  do r <- Current_Op fuel s (Some atom);
  match r with
  | None => Ret []
  | Some (k, v, None) => Ret [(k, v)]
  | Some (k, v, Some c) =>
    do r <- Current_Op_Alt fuel s c;
    match r with Some (k', v', _) => Ret [(k, v); (k', v')] | None => Ret [(k, v)] end
  end.
Definition types_of (f : map_) (atom : Z) : list (Z * Z) :=
  flat_map (fun t => match f (Make_Oper_Key atom t) with Some v => [(Make_Oper_Key atom t, v)] | None => [] end) [PREFIX; POSTFIX; INFIX].
Lemma read_ok s p n k v : hnodes (om s) p = Some (Node n k v) -> read_oper s p = Ret (k, v).
Proof. intros E. unfold read_oper, rd_node. now rewrite E. Qed.
Lemma enum_atom_ok s f cs atom fuel : oinv s f cs -> (length (concat cs) < fuel)%nat -> 0 <= atom ->
  f (Make_Oper_Key atom POSTFIX) = None \/ f (Make_Oper_Key atom INFIX) = None ->
  enum_atom fuel s atom = Ret (types_of f atom).
Proof.
  intros V L Ra NB.
  assert (HL : forall t, 0 <= t <= 2 -> exists p, Lookup_Oper fuel s atom t = Ret p /\
     match f (Make_Oper_Key atom t) with Some v => read_oper s p = Ret (Make_Oper_Key atom t, v) | None => True end).
  { intros t Rt. destruct (Lookup_ok s f cs atom t fuel V L Ra Rt) as [p [E Hp]]. exists p. split; [exact E|].
    destruct (f (Make_Oper_Key atom t)); [|exact I]. destruct Hp as [n Q]. exact (read_ok _ _ _ _ _ Q). }
  assert (HM : forall t, 0 <= t <= 2 -> omask s atom t = match f (Make_Oper_Key atom t) with Some _ => true | None => false end).
  { intros t Rt. pose proof (oi_mask _ _ _ V atom t Ra Rt) as Q. destruct (f (Make_Oper_Key atom t)), (omask s atom t); auto.
    - destruct Q as [_ Q]. discriminate Q. discriminate.
    - destruct Q as [Q _]. now destruct (Q eq_refl). }
  destruct (HL PREFIX ltac:(unfold PREFIX; lia)) as [p0 [L0 R0]]. destruct (HL POSTFIX ltac:(unfold POSTFIX; lia)) as [p1 [L1 R1]].
  destruct (HL INFIX ltac:(unfold INFIX; lia)) as [p2 [L2 R2]].
  pose proof (HM PREFIX ltac:(unfold PREFIX; lia)) as M0. pose proof (HM POSTFIX ltac:(unfold POSTFIX; lia)) as M1.
  pose proof (HM INFIX ltac:(unfold INFIX; lia)) as M2.
  unfold enum_atom, Current_Op, types_of, mask0. clear HM HL V.
  cbv delta [PREFIX POSTFIX INFIX] in *. cbn [flat_map].
  destruct (f (Make_Oper_Key atom 0)) as [v0|] eqn:F0; destruct (f (Make_Oper_Key atom 1)) as [v1|] eqn:F1;
    destruct (f (Make_Oper_Key atom 2)) as [v2|] eqn:F2; try (destruct NB; discriminate); cbn [app];
  repeat first [ progress (cbn [Z.eqb Pos.eqb orb negb bind Current_Op_Alt]) | progress (unfold first_type, del_bit) | progress (cbv beta delta [PREFIX POSTFIX INFIX])
    | rewrite M0 | rewrite M1 | rewrite M2 | rewrite L0 | rewrite L1 | rewrite L2 | rewrite R0 | rewrite R1 | rewrite R2 ]; reflexivity.
Qed.

(** all the solutions of current_op(_, _, Name) with Name unbound, at most [n] of them *)
Fixpoint enum_alts (n : nat) (fuel : nat) (s : ostate) (r : option (Z * Z * option calt)) : outcome (list (Z * Z)) :=
  match r with
  | None => Ret []
  | Some (k, v, None) => Ret [(k, v)]
  | Some (k, v, Some c) =>
    match n with
    | O => NoFuel
    | S n => do r <- Current_Op_Alt fuel s c; do l <- enum_alts n fuel s r; Ret ((k, v) :: l)
    end
  end.
Definition enum_all (n fuel : nat) (s : ostate) : outcome (list (Z * Z)) :=
  do r <- Current_Op fuel s None; enum_alts n fuel s r.
Lemma enum_visit s fuel : forall n p sc l m', visit n fuel (om s) (ob s) p sc [] = Ret (l, true, m') ->
  (do r <- (if p =? 0 then Ret None else do (k, v) <- read_oper s p; Ret (Some (k, v, Some (CScan sc)))); enum_alts n fuel s r) = Ret l.
Proof.
  induction n as [|n IH]; intros p sc l m' Q; cbn [visit] in Q; destruct (p =? 0); cbn [bind enum_alts]; try congruence; cbn [hd tl run_ops bind] in Q.
  unfold read_oper. destruct (rd_node (om s) p) as [nd| |]; cbn [bind] in Q |- *; try discriminate. cbn [enum_alts Current_Op_Alt].
  destruct (Next (om s) sc) as [[p1 sc1]| |]; cbn [bind] in Q |- *; try discriminate.
  destruct (visit n fuel (om s) (ob s) p1 sc1 []) as [[[l1 fin1] m1]| |] eqn:V; cbn [bind] in Q; try discriminate.
  assert (fin1 = true) by congruence. subst fin1.
  specialize (IH p1 sc1 l1 m1 V). assert (l = (nkey nd, nval nd) :: l1) by congruence. subst l. clear Q V.
  destruct (p1 =? 0); cbn [bind] in IH |- *; [rewrite IH; reflexivity|]. unfold read_oper in IH |- *.
  destruct (rd_node (om s) p1); cbn [bind] in IH |- *; try discriminate. rewrite IH. reflexivity.
Qed.
Lemma legal_visit_nil : forall n fuel m b f seen p s, legal_visit n fuel m b f seen p s [].
Proof.
  induction n as [|n IH]; intros; cbn [legal_visit]; [exact I|]. right. intros nd _. cbn [hd tl scan_ops]. split; [exact I|].
  intros m' b' p' s' _ _. apply IH.
Qed.
Lemma enum_all_ok s f cs n fuel : oinv s f cs -> (length (concat cs) < fuel)%nat -> (length (concat cs) <= n)%nat ->
  exists l, enum_all n fuel s = Ret l /\ m_list f l.
Proof.
  intros V L N. destruct (scan_table_ok n (om s) (ob s) f cs [] fuel (oi_tbl _ _ _ V)) as [l [fin [m' [E [ND [A [B [_ T]]]]]]]].
  - intros p sc _. apply legal_visit_nil.
  - exact L.
  - specialize (T N). subst fin. exists l. unfold scan_table in E. unfold enum_all, Current_Op.
    destruct (First (om s) (ob s)) as [[p sc]| |]; cbn [bind] in E |- *; try discriminate.
    split; [exact (enum_visit s fuel n p sc l m' E)|]. split; [exact ND|]. intros k v. split.
    + intros Q. assert (In k (map fst l)) as I by (apply A; congruence). apply in_map_iff in I as [[k' v'] [Ek I]]. cbn in Ek. subst k'.
      destruct (B k v' I) as [Q'|[r [a []]]]. assert (v = v') by congruence. now subst.
    + intros I. destruct (B k v I) as [Q|[r [a []]]]. exact Q.
Qed.
