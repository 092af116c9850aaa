(** C61: the code of a clause leaves no reference to a local stack frame which may go away. *)
Require Import List Bool Arith.
Require Import Verif.RegAlloc_Model Verif.RegAlloc_Spec Verif.Props_RegAlloc Verif.Clause_Model Verif.Clause_Spec Verif.Props_Clause.
Require Import Verif.Place_Spec Verif.Place_Body Verif.Equal_Model.
Import ListNotations.

(** ** The code of a clause without '$mt'(M, Var) in the body *)
Theorem C61_safe : forall fl cl code, body_no_meta_var cl = true -> compile fl cl = Some code -> safe_code (length (c_head cl)) code.
Proof. intros fl cl code NM E. pattern code. refine (compile_inv _ _ _ _ E _). intros. eapply top_safe; eauto. Qed.
(** ** The same after the allocation of the registers and the emission of the code *)
Theorem C61_allocated : forall fl cl code keep opt s n, body_no_meta_var cl = true -> compile fl cl = Some code -> allocate_registers opt code = Some (s, n) ->
  safe_code (length (c_head cl)) (emit_code keep (map (map_inst (val s)) code)).
Proof.
  intros fl cl code keep opt s n NM E EA result rest m AO. rewrite <- (C59_same_events place result rest rest keep opt code s n m m [] (C60_good_code _ _ _ E) EA (fun _ => eq_refl)).
  apply (C61_safe fl cl code NM E result rest m AO).
Qed.

(** the words of the examples: put_variable gives a reference to the environment, put_value what [f] says *)
Definition res (f : nat -> place) (tr : list (event place)) (k : nat) : place :=
  match tr with (LPut (i_put_variable _), _) :: _ => Cur | (LPut (i_put_value y), _) :: _ => f y | _ => Heap end.
Definition rest0 (tr : list (event place)) (x : reg) : place := Heap.
Definition trace (f : nat -> place) (code : list inst) : list (event place) := snd (run place (res f) rest0 code ((fun _ => Outer), [])).
Lemma bindings_refl : forall q, bindings q q.
Proof. intros [(n, f)|]; cbn; auto. Qed.
Lemma step : forall result e tr q q', follows result tr q -> change (fst e) (snd e) (result (e :: tr) 0) q q' -> follows result (e :: tr) q'.
Proof. intros result e tr q q' F H. exists q. split; [exact F|]. exists q'. split; [exact H|apply bindings_refl]. Qed.
Ltac steps := repeat (match goal with |- follows _ (_ :: _) _ => eapply step end); cbn [change fst snd res hd];
  repeat match goal with
  | |- follows _ [] _ => reflexivity
  | |- exists x, [_] = [x] /\ _ => eexists; split; reflexivity
  | |- _ = _ => reflexivity
  | |- _ /\ _ => split
  | |- _ <> _ => discriminate
  end.

Definition y0_outer (y : nat) : place := match y with O => Outer | _ => Heap end.
(** the hypotheses hold, and the whole of a run is one which the code can make *)
Example C61_safe_ex : body_no_meta_var chunk_clause = true /\
  exists code, compile std chunk_clause = Some code /\ args_outside 2 (fun _ => Outer) /\
    length (trace y0_outer code) = 22 /\ exists q, follows (res y0_outer) (trace y0_outer code) q.
Proof.
  split; [reflexivity|]. eexists. split; [vm_compute; reflexivity|]. split; [intros a _; discriminate|]. split; [vm_compute; reflexivity|]. eexists.
  match goal with |- follows ?r ?t ?q => let t' := eval vm_compute in t in change (follows r t' q) end. steps.
Qed.
Example C61_allocated_ex : exists code s n, body_no_meta_var chunk_clause = true /\ compile std chunk_clause = Some code /\ allocate_registers 2 code = Some (s, n) /\
  final_code chunk_clause = Some (emit_code false (map (map_inst (val s)) code)).
Proof. do 3 eexists. split; [reflexivity|]. split; [vm_compute; reflexivity|]. split; [vm_compute; reflexivity|vm_compute; reflexivity]. Qed.

(** ** put_unsafe_value is needed: p :- q(Y), r(Y). with put_value instead *)
Definition unsafe_clause : clause := Clause [] [Goal false 2 [Tv 0]; Goal false 3 [Tv 0]].
Definition to_put_value (x : inst) : inst := match x with put_arg (i_put_unsafe_value y) a => put_arg (i_put_value y) a | _ => x end.
Lemma not_safe : forall f n code l1 e l2 q, trace f code = l1 ++ e :: l2 -> follows (res f) l2 q -> danger (fst e) (snd e) q -> ~ safe_code n code.
Proof. intros f n code l1 e l2 q E F D H. refine (H (res f) rest0 (fun _ => Outer) _ l1 e l2 q E F D). intros a _. discriminate. Qed.
Example C61_unsafe_needed : exists code, compile std unsafe_clause = Some code /\ safe_code 0 code /\ ~ safe_code 0 (map to_put_value code).
Proof.
  eexists. split; [vm_compute; reflexivity|]. split; [apply (C61_safe std unsafe_clause); vm_compute; reflexivity|].
  eapply (not_safe (fun _ => Cur) _ _ []); [vm_compute; reflexivity| |].
  - match goal with |- follows ?r ?t ?q => let t' := eval vm_compute in t in change (follows r t' q) end. steps.
  - left. split; [reflexivity|]. left. reflexivity.
Qed.

(** ** '$mt'(M, Var) in the body: p :- q('$mt'(m, Y)), r(Y).  The word of Y is stored in the heap as it is
    (code_gen.pl:340-343, wam_inst.c:618-690) *)
Definition meta_clause : clause := Clause [] [Goal false 2 [Tf mt [Tc (Catm 0); Tv 0]]; Goal false 3 [Tv 0]].
Theorem C61_meta_refuted : exists cl code, compile std cl = Some code /\ ~ safe_code (length (c_head cl)) code.
Proof.
  exists meta_clause. eexists. split; [vm_compute; reflexivity|].
  eapply (not_safe (fun _ => Cur) _ _ [_; _; _; _]); [vm_compute; reflexivity| |].
  - steps.
  - right. exists Cur. split; [left; reflexivity|discriminate].
Qed.

(** ** =/2 in the body: p(T) :- X = Y, q(f(X), T), r(Y).  The register of X gets a reference to the permanent variable Y,
    but X counts as a word of the heap (code_gen.pl:584-592), and unify_value stores it in the heap as it is *)
Definition equal_clause : clause := Clause [Tv 2] [Goal true eq2 [Tv 0; Tv 1]; Goal false 2 [Tf 5 [Tv 0]; Tv 2]; Goal false 3 [Tv 1]].
Theorem C61_equal_refuted : exists cl code, body_no_meta_var cl = true /\ compile_eq std cl = Some code /\ ~ safe_code (length (c_head cl)) code.
Proof.
  exists equal_clause. eexists. split; [reflexivity|]. split; [vm_compute; reflexivity|].
  eapply (not_safe (fun _ => Cur) _ _ [_; _; _; _]); [vm_compute; reflexivity| |].
  - steps.
  - right. exists Cur. split; [left; reflexivity|discriminate].
Qed.
(** the clauses without =/2 have the same code in both models *)
Theorem C61_equal_conservative : forall fl cl, forallb (fun g => match as_eq g with None => true | Some _ => false end) (c_body cl) = true -> compile_eq fl cl = compile fl cl.
Proof.
  intros fl cl H. unfold compile_eq, compile. destruct (chunks true 0 (c_body cl)) as (body, nb) eqn:E. destruct (classif_vars _ _) as (k, nby).
  destruct (gen_lst _ _ _) as [(c1, s1)|]; [|reflexivity]. rewrite generate_body_eq_same; [reflexivity|].
  assert (Q : forall l a b r, chunks a b l = r -> forallb (fun g => match as_eq g with None => true | Some _ => false end) l = true ->
    forallb (fun p => match as_eq (snd p) with None => true | Some _ => false end) (fst r) = true); [|exact (Q _ _ _ _ E H)].
  clear. induction l as [|g l IH]; intros a b r E H; cbn [chunks] in E; [subst r; reflexivity|]. cbn in H. apply andb_true_iff in H. destruct H as (H1 & H2).
  destruct (chunks (negb (g_inl g)) (if a then b + 1 else b) l) as (l0, nb0) eqn:E0. subst r. cbn. rewrite H1. exact (IH _ _ _ E0 H2).
Qed.
Example C61_equal_conservative_ex : compile_eq std chunk_clause = compile std chunk_clause /\ compile_eq std equal_clause <> compile std equal_clause.
Proof. split; [apply C61_equal_conservative; reflexivity|vm_compute; discriminate]. Qed.

Print Assumptions C61_safe.
Print Assumptions C61_allocated.
Print Assumptions C61_meta_refuted.
Print Assumptions C61_equal_refuted.
Print Assumptions C61_equal_conservative.
