(** C59: register allocation.  Theorems and examples. *)
Require Import List Bool Arith Lia.
Require Import Verif.RegAlloc_Model Verif.RegAlloc_Spec Verif.RegAlloc_Graph Verif.RegAlloc_Assign Verif.RegAlloc_Proofs.
Import ListNotations.

(** the code of a clause: p(X,Y) :- q(Y,X), then p(f(X,Y),_,g(X,Z)) :- q(Y,_,Z) *)
Definition swap_code : list inst :=
  [get_variable_x (T 0) (A 0); get_variable_x (T 1) (A 1); put_value_x (T 1) (A 0); put_value_x (T 0) (A 1); call 5 2].
Definition term_code : list inst :=
  [get_arg 0 (A 0); unify_variable_x (T 0); unify_variable_x (T 1); get_arg 1 (A 2); unify_value_x 0 (T 0); unify_variable_x (T 2);
   put_value_x (T 1) (A 0); put_value_x (T 2) (A 2); call 7 3].
Definition final (keep : bool) (opt : nat) (l : list inst) : option (list inst) :=
  match allocate_registers opt l with Some (s, _) => Some (emit_code keep (map (map_inst (val s)) l)) | None => None end.

(** ** The allocation does not fail and gives an argument register to all temporaries *)
Theorem C59_total : forall opt l, exists s m, allocate_registers opt l = Some (s, m) /\
  forall i t, In i l -> In (T t) (reads_of i) \/ In (T t) (writes_of i) -> exists n, s t = A n.
Proof.
  intros opt l. unfold allocate_registers. destruct (create_lst_tmp opt l []) as [life g] eqn:E. destruct (create_ginv _ _ _ _ _ E) as (B1 & B2 & _ & B4).
  destruct (assign_ok opt life g B1 B2) as (s & m & E1 & S1 & _). exists s, m. split; [exact E1|]. intros i t Hi Ht. apply S1. apply (B4 i t Hi Ht).
Qed.
Example C59_total_ex : final false 2 swap_code = Some [get_variable_x (A 2) (A 0); put_value_x (A 1) (A 0); put_value_x (A 2) (A 1); call 5 2] /\
  final false 0 swap_code = Some [get_variable_x (A 2) (A 0); get_variable_x (A 3) (A 1); put_value_x (A 3) (A 0); put_value_x (A 2) (A 1); call 5 2] /\
  final false 2 term_code = Some [get_arg 0 (A 0); unify_variable_x (A 3); unify_variable_x (A 0); get_arg 1 (A 2); unify_value_x 0 (A 3); unify_variable_x (A 2); call 7 3].
Proof. vm_compute. repeat split. Qed.

(** ** The code after the allocation does the same as the code before

    [V]: the values; [result]: what the instructions compute; [rest1], [rest2]: what the
    registers contain after a call, which is not the same in the two runs.  An instruction which
    fails stops both runs in the same place, since the events are the same. *)
Theorem C59_same_events : forall (V : Type) (result : list (event V) -> nat -> V) (rest1 rest2 : list (event V) -> reg -> V) keep opt l s n m1 m2 tr,
  good_code l -> allocate_registers opt l = Some (s, n) -> (forall a, m1 (A a) = m2 (A a)) ->
  snd (run V result rest1 l (m1, tr)) = snd (run V result rest2 (emit_code keep (map (map_inst (val s)) l)) (m2, tr)).
Proof.
  intros V result rest1 rest2 keep opt l s n m1 m2 tr GC EA AG. unfold allocate_registers in EA. destruct (create_lst_tmp opt l []) as [life g] eqn:E.
  destruct (create_ginv _ _ _ _ _ E) as (B1 & B2 & B3 & B4). destruct (assign_ok opt life g B1 B2) as (s1 & n1 & E1 & _ & S2). cbn in EA. rewrite E1 in EA. injection EA as <- <-.
  apply (sim V result l GC opt s1 keep rest1 rest2 l [] [] m1 m2 tr life g eq_refl E).
  - exact S2.
  - split; [constructor|]. split; [intros x []|intros x y (q & [] & _)].
  - intros [a|t] Hx; [symmetry; apply AG|]. exfalso. apply (proj1 GC t Hx).
Qed.
Example C59_same_events_ex : good_code swap_code /\ good_code term_code /\
  let result := fun (tr : list (event nat)) k => 100 + 10 * length tr + k in
  let rest := fun (tr : list (event nat)) (x : reg) => 0 in
  let m := fun x => match x with A n => n + 1 | T _ => 99 end in
  snd (run nat result rest swap_code (m, [])) = [(LCall 5 2, [2; 1])] /\
  snd (run nat result rest term_code (m, [])) =
    [(LCall 7 3, [130; 2; 160]); (LUnifyVar, []); (LUnify 0, [120]); (LGet 1, [3]); (LUnifyVar, []); (LUnifyVar, []); (LGet 0, [1])].
Proof. split; [apply good_codeb_ok; vm_compute; reflexivity|]. split; [apply good_codeb_ok; vm_compute; reflexivity|]. vm_compute. split; reflexivity. Qed.

(** ** What the allocation relies on *)
Definition same_for (l : list inst) : Prop := forall s n, allocate_registers 2 l = Some (s, n) ->
  forall m tr, let result := fun (tr : list (event nat)) (k : nat) => 100 + length tr in let rest := fun (tr : list (event nat)) (x : reg) => 0 in
  snd (run nat result rest l (m, tr)) = snd (run nat result rest (emit_code false (map (map_inst (val s)) l)) (m, tr)).
Ltac differs m := intros Q; specialize (Q _ _ eq_refl m []); vm_compute in Q; discriminate Q.
(** an argument which is written and not read later may be given to a temporary which is live *)
Theorem C59_dead_argument_refuted : exists l, (forall t, ~ needed (T t) l) /\
  (forall l1 i l2, l = l1 ++ i :: l2 -> forall t j, In (T t) (writes_of i) -> In j l1 -> ~ In (T t) (reads_of j) /\ ~ In (T t) (writes_of j)) /\ ~ same_for l.
Proof.
  exists [unify_variable_x (T 0); put_arg 7 (A 0); unify_value_x 0 (T 0)]. split; [intros t; cbn; intuition congruence|]. split.
  - intros [|i1 [|i2 [|i3 [|i4 l1]]]] i l2 E t j Ht Hj; try discriminate E; injection E; intros; subst; cbn in *; try contradiction; try (destruct Hj as [<-|Hj]; cbn; intuition congruence); intuition congruence.
  - differs (fun x : reg => 1).
Qed.
(** a temporary which is written again while it is an alias of a register which is live *)
Theorem C59_written_again_refuted : exists l, (forall t, ~ needed (T t) l) /\
  (forall l1 i l2, l = l1 ++ i :: l2 -> forall a, In (A a) (writes_of i) -> needed (A a) l2) /\ ~ same_for l.
Proof.
  exists [get_variable_x (T 0) (A 0); unify_variable_x (T 0); get_arg 0 (A 0)]. split; [intros t; cbn; intuition congruence|]. split.
  - intros [|i1 [|i2 [|i3 [|i4 l1]]]] i l2 E a Ha; try discriminate E; injection E; intros; subst; cbn in *; intuition congruence.
  - differs (fun x : reg => 1).
Qed.
(** a copy of a register in itself makes the aliases wrong *)
Theorem C59_self_copy_refuted : exists l, (forall t, ~ needed (T t) l) /\
  (forall l1 i l2, l = l1 ++ i :: l2 -> forall a, In (A a) (writes_of i) -> needed (A a) l2) /\
  (forall l1 i l2, l = l1 ++ i :: l2 -> forall t j, In (T t) (writes_of i) -> In j l1 -> ~ In (T t) (reads_of j) /\ ~ In (T t) (writes_of j)) /\ ~ same_for l.
Proof.
  exists [put_value_x (A 0) (A 0); get_variable_x (T 0) (A 0); put_arg 1 (A 0); unify_value_x 0 (T 0); get_arg 2 (A 0)]. split; [intros t; cbn; intuition congruence|]. split; [|split].
  - intros [|i1 [|i2 [|i3 [|i4 [|i5 [|i6 l1]]]]]] i l2 E a Ha; try discriminate E; injection E; intros; subst; cbn in *; intuition congruence.
  - intros [|i1 [|i2 [|i3 [|i4 [|i5 [|i6 l1]]]]]] i l2 E t j Ht Hj; try discriminate E; injection E; intros; subst; cbn in *; intuition (subst; cbn in *; intuition congruence).
  - differs (fun x : reg => 1).
Qed.

(** ** The registers which are used

    reg_alloc.pl:43-44 says that MaxRegUsed is the greatest register used (-1: none).  The
    registers which are given as a wish are not counted (nor are the arguments). *)
Theorem C59_max_used_refuted : exists l s t n, good_code l /\ allocate_registers 2 l = Some (s, 0) /\
  (exists i, In i l /\ In (T t) (writes_of i)) /\ s t = A n.
Proof.
  exists [get_arg 0 (A 0); unify_variable_x (T 0); put_value_x (T 0) (A 1); put_arg 3 (A 0); call 1 2].
  eexists. exists 0, 1. split; [apply good_codeb_ok; vm_compute; reflexivity|]. split; [vm_compute; reflexivity|]. split; [|vm_compute; reflexivity].
  exists (unify_variable_x (T 0)). cbn. auto.
Qed.
(** Without the wishes (optimization levels 0 and 1) it is the greatest register given to a temporary. *)
Lemma values_max : forall l s m s' m', assign_values s l m = (s', m') -> NoDup (map fst l) -> (forall t, In t (map fst l) -> s t = T t) ->
  (forall t n, s t = A n -> n < m) -> (0 < m -> exists t, s t = A (m - 1)) -> (forall t n, s' t = A n -> n < m') /\ (0 < m' -> exists t, s' t = A (m' - 1)).
Proof.
  induction l as [|[t im] l IH]; intros s m s' m' E ND R U1 U2; cbn [assign_values map fst] in *; [injection E as <- <-; auto|]. inversion ND as [|? ? N1 N2]; subst.
  pose (n := find_hole (sort (map (val s) im)) 0). fold n in E. pose proof (R t (or_introl eq_refl)) as Rt. apply (IH _ _ _ _ E N2).
  - intros u Hu. rewrite s_bind, (R u (or_intror Hu)). cbn. destruct (Nat.eqb_spec u t) as [->|]; [contradiction|reflexivity].
  - intros u k Q. rewrite s_bind in Q. destruct (s u) as [a|a] eqn:EU; cbn in Q.
    + injection Q as ->. specialize (U1 u k EU). destruct (Nat.leb_spec m n); lia.
    + destruct (a =? t); [|discriminate Q]. injection Q as <-. destruct (Nat.leb_spec m n); lia.
  - intros L. destruct (Nat.leb_spec m n) as [Q|Q].
    + exists t. rewrite s_bind, Rt. cbn. rewrite Nat.eqb_refl. f_equal. lia.
    + destruct (U2 L) as (u & EU). exists u. rewrite s_bind, EU. reflexivity.
Qed.
Theorem C59_max_used : forall opt l s m, opt <> 2 -> allocate_registers opt l = Some (s, m) ->
  (forall t n, s t = A n -> n < m) /\ (0 < m -> exists t, s t = A (m - 1)).
Proof.
  intros opt l s m N EA. unfold allocate_registers in EA. destruct (create_lst_tmp opt l []) as [life g] eqn:E. destruct (create_ginv _ _ _ _ _ E) as (B1 & _). cbn [snd] in EA. unfold assign_lst_tmp in EA.
  apply Nat.eqb_neq in N. rewrite N in EA. destruct (assign_values T (no_wish opt g) 0) as (s1, m1) eqn:E1. injection EA as <- <-. apply (values_max _ _ _ _ _ E1).
  - unfold no_wish. rewrite map_map. destruct B1 as [_ G2 _ _ _]. exact G2.
  - reflexivity.
  - discriminate.
  - lia.
Qed.
Example C59_max_used_ex : exists s, allocate_registers 0 swap_code = Some (s, 4) /\ s 0 = A 2 /\ s 1 = A 3.
Proof. eexists. split; [vm_compute; reflexivity|]. split; vm_compute; reflexivity. Qed.
(** There are 256 registers (NB_OF_X_REGS, EnginePl/pl_params.h:48) and predicates have at most
    255 arguments (MAX_ARITY, pl_params.h:49), but the allocation has no limit: the code of a
    predicate with 255 arguments and two temporaries uses X(256), which is after the end of
    the registers. *)
Theorem C59_limit_refuted : exists l s n t, good_code l /\ allocate_registers 2 l = Some (s, n) /\
  (forall i a, In i l -> In (A a) (reads_of i) \/ In (A a) (writes_of i) -> a < 255) /\
  (exists i, In i l /\ In (T t) (writes_of i)) /\ s t = A 256.
Proof.
  exists [unify_variable_x (T 0); unify_variable_x (T 1); unify_value_x 0 (T 0); unify_value_x 0 (T 1); call 0 255].
  eexists. eexists. exists 0. split; [apply good_codeb_ok; vm_compute; reflexivity|]. split; [vm_compute; reflexivity|]. split; [|split].
  - intros i a Hi H. cbn [In] in Hi. repeat (destruct Hi as [<-|Hi]; [unfold reads_of, writes_of in H; cbn [effect_of In map fst] in H; try (exfalso; intuition congruence)|]); [|destruct Hi].
    destruct H as [H|[]]. apply in_map_iff in H. destruct H as (k & E & Hk). injection E as <-. apply in_seq in Hk. lia.
  - exists (unify_variable_x (T 0)). split; [left; reflexivity|]. cbn. auto.
  - vm_compute. reflexivity.
Qed.

Print Assumptions C59_total.
Print Assumptions C59_same_events.
Print Assumptions C59_dead_argument_refuted.
Print Assumptions C59_written_again_refuted.
Print Assumptions C59_self_copy_refuted.
Print Assumptions C59_max_used_refuted.
Print Assumptions C59_max_used.
Print Assumptions C59_limit_refuted.
