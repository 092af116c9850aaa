(** Theorems about sub_atom/5 (C25) and atom_concat/3 (C26). *)
Require Import ZArith List Bool Lia Sorted.
Require Import Verif.Heap_Model Verif.SubAtom_Model Verif.SubAtom_Spec Verif.SubAtom_Proofs.
Import ListNotations.
Open Scope Z_scope.

(** * C25: sub_atom/5 *)
(** The arguments are of the right types ([typed]; other arguments raise errors).  Partial:
    names have fewer than 65536 bytes, the length and the sub-atom are not the same variable, and
    when the sub-atom is given B and A are within its range. *)
Theorem C25_sub_atom_partial :
  forall fuel name g, Z.of_nat (length name) < 2 ^ 16 -> typed g ->
  (Z.of_nat (length name) + 1) * (Z.of_nat (length name) + 2) <= Z.of_nat fuel ->
  (forall v, sub g = Var v -> len g <> Var v) ->
  (forall t, sub g = Val (VAtm t) -> Z.of_nat (length t) < 2 ^ 16 /\
     (forall b v, before g = Val (VInt b) -> after g = Var v -> b <= Z.of_nat (length name)) /\
     (forall a v, after g = Val (VInt a) -> before g = Var v -> a + Z.of_nat (length t) <= Z.of_nat (length name))) ->
  Sub_Atom fuel name g = Ret (sub_solutions name g).
Proof. intros fuel name g. apply Sub_Atom_ok. Qed.
(** a and b in "abab": sub_atom(abab,B,L,A,ab), sub_atom(ab,B,L,A,S) and sub_atom(aba,X,L,X,S) *)
Example C25_ex : let ab := [97; 98] in
  Sub_Atom 30 (ab ++ ab) (Bla (Var 0) (Var 1) (Var 2) (Val (VAtm ab))) = Ret [(VInt 0, VInt 2, VInt 2, VAtm ab); (VInt 2, VInt 2, VInt 0, VAtm ab)] /\
  Sub_Atom 12 ab (Bla (Var 0) (Var 1) (Var 2) (Var 3)) =
    Ret [(VInt 0, VInt 0, VInt 2, VAtm []); (VInt 0, VInt 1, VInt 1, VAtm [97]); (VInt 0, VInt 2, VInt 0, VAtm ab);
         (VInt 1, VInt 0, VInt 1, VAtm []); (VInt 1, VInt 1, VInt 0, VAtm [98]); (VInt 2, VInt 0, VInt 0, VAtm [])] /\
  Sub_Atom 20 [97; 98; 97] (Bla (Var 0) (Var 1) (Var 0) (Var 3)) = Ret [(VInt 0, VInt 3, VInt 0, VAtm [97; 98; 97]); (VInt 1, VInt 1, VInt 1, VAtm [98])].
Proof. vm_compute. auto. Qed.
Example C25_hyp_ex : let g := Bla (Val (VInt 1)) (Var 1) (Var 2) (Val (VAtm [98])) in typed g /\
  (forall v, sub g = Var v -> len g <> Var v) /\
  (forall t, sub g = Val (VAtm t) -> Z.of_nat (length t) < 2 ^ 16 /\ (forall b v, before g = Val (VInt b) -> after g = Var v -> b <= 3) /\ (forall a v, after g = Val (VInt a) -> before g = Var v -> a + Z.of_nat (length t) <= 3)) /\
  Sub_Atom 20 [97; 98; 97] g = Ret [(VInt 1, VInt 1, VInt 1, VAtm [98])].
Proof.
  cbv zeta. unfold typed. cbn [before len after sub]. split; [|split; [|split; [|reflexivity]]].
  - repeat split; intros x E; try discriminate; inversion E; eauto. exists 1. split; [reflexivity|lia].
  - discriminate.
  - intros t E. inversion E; subst. cbn. split; [lia|]. split; [intros b v Q _; inversion Q; lia|discriminate].
Qed.

(** What is enumerated: exactly the decompositions of the name into three parts which agree with
    the arguments, each once, by increasing B and then increasing L. *)
Theorem C25_solutions :
  forall name g b l a s, In (b, l, a, s) (sub_solutions name g) <->
  exists x y z, name = x ++ y ++ z /\ b = VInt (Z.of_nat (length x)) /\ l = VInt (Z.of_nat (length y)) /\ a = VInt (Z.of_nat (length z)) /\ s = VAtm y /\
    consistent [(before g, b); (len g, l); (after g, a); (sub g, s)] = true.
Proof. exact solutions_iff. Qed.
Theorem C25_order : forall name g, StronglySorted (fun p q => match p, q with
    | (VInt b, VInt l, _, _), (VInt b', VInt l', _, _) => b < b' \/ b = b' /\ l < l' | _, _ => False end) (sub_solutions name g).
Proof. exact solutions_sorted. Qed.

(** Counterexamples.  The length and the sub-atom are the same variable: the result of the second
    unification is not looked at (atom_c.c:505-515), '' is answered as a length *)
Theorem C25_shared_refuted : exists name g r, typed g /\ Sub_Atom 100 name g = Ret r /\ In (VInt 0, VAtm [], VInt 3, VAtm []) r /\ sub_solutions name g = [].
Proof.
  exists [97; 98; 99], (Bla (Var 0) (Var 1) (Var 2) (Var 1)). eexists. split; [|split; [vm_compute; reflexivity|split; [vm_compute; tauto|vm_compute; reflexivity]]].
  unfold typed. cbn. repeat split; discriminate.
Qed.
(** sub_atom(abc,5,L,A,'') succeeds with A = -2 *)
Theorem C25_range_refuted : exists name g, typed g /\ Sub_Atom 100 name g = Ret [(VInt 5, VInt 0, VInt (-2), VAtm [])] /\ sub_solutions name g = [].
Proof.
  exists [97; 98; 99], (Bla (Val (VInt 5)) (Var 1) (Var 2) (Val (VAtm []))). split; [|split; vm_compute; reflexivity].
  unfold typed. cbn. repeat split; intros x E; try discriminate; inversion E; eauto. exists 5. split; [reflexivity|lia].
Qed.
(** sub_atom(abc,10,L,A,x) reads outside of the name, so does sub_atom(abc,B,L,10,x) *)
Theorem C25_oob_refuted : exists name g g', typed g /\ typed g' /\ Sub_Atom 100 name g = UB /\ Sub_Atom 100 name g' = UB /\ sub_solutions name g = [] /\ sub_solutions name g' = [].
Proof.
  exists [97; 98; 99], (Bla (Val (VInt 10)) (Var 1) (Var 2) (Val (VAtm [120]))), (Bla (Var 0) (Var 1) (Val (VInt 10)) (Val (VAtm [120]))). split; [|split; [|vm_compute; auto]].
  - unfold typed. cbn. repeat split; intros x E; try discriminate; inversion E; eauto. exists 10. split; [reflexivity|lia].
  - unfold typed. cbn. repeat split; intros x E; try discriminate; inversion E; eauto. exists 10. split; [reflexivity|lia].
Qed.
(** a name of 65536 bytes has length 0 *)
Theorem C25_long_refuted : exists name g, typed g /\ (forall fuel, Sub_Atom fuel name g = Ret []) /\ In (VInt 1, VInt 0, VInt 65535, VAtm []) (sub_solutions name g).
Proof. exact long_refuted. Qed.

(** * C26: atom_concat/3 *)
(** Partial: names have fewer than 65536 bytes ([ctyped] also says that the arguments are
    variables or atoms).  [None] in the specification is an instantiation error. *)
Theorem C26_concat_partial :
  forall fuel t1 t2 t3, ctyped t1 -> ctyped t2 -> ctyped t3 -> (forall s, t3 = Val (VAtm s) -> (length s < fuel)%nat) ->
  Atom_Concat fuel t1 t2 t3 = Ret (match concat_solutions t1 t2 t3 with Some l => Answers l | None => Instantiation end).
Proof. intros fuel t1 t2 t3. apply Atom_Concat_ok. Qed.
(** what is enumerated: the splits, in the order of the length of the first part, each once *)
Theorem C26_solutions :
  forall t1 t2 t3 l, ctyped t1 -> ctyped t2 -> ctyped t3 -> concat_solutions t1 t2 t3 = Some l ->
  (forall x y z, In (x, y, z) l <-> exists s1 s2, x = VAtm s1 /\ y = VAtm s2 /\ z = VAtm (s1 ++ s2) /\ consistent [(t1, x); (t2, y); (t3, z)] = true) /\
  StronglySorted (fun p q => match p, q with (VAtm s, _, _), (VAtm s', _, _) => (length s < length s')%nat | _, _ => False end) l.
Proof. exact concat_spec. Qed.
(** an instantiation error exactly when the third argument and one of the others are variables *)
Theorem C26_instantiation :
  forall t1 t2 t3, ctyped t1 -> ctyped t2 -> ctyped t3 ->
  concat_solutions t1 t2 t3 = None <-> (exists v, t3 = Var v) /\ ((exists v, t1 = Var v) \/ (exists v, t2 = Var v)).
Proof. exact concat_none. Qed.
Example C26_ex : Atom_Concat 10 (Val (VAtm [97])) (Val (VAtm [98; 99])) (Var 0) = Ret (Answers [(VAtm [97], VAtm [98; 99], VAtm [97; 98; 99])]) /\
  Atom_Concat 10 (Var 0) (Var 1) (Val (VAtm [97; 98])) = Ret (Answers [(VAtm [], VAtm [97; 98], VAtm [97; 98]); (VAtm [97], VAtm [98], VAtm [97; 98]); (VAtm [97; 98], VAtm [], VAtm [97; 98])]) /\
  Atom_Concat 10 (Var 0) (Var 0) (Val (VAtm [97; 98; 97; 98])) = Ret (Answers [(VAtm [97; 98], VAtm [97; 98], VAtm [97; 98; 97; 98])]) /\
  Atom_Concat 10 (Var 0) (Val (VAtm [98])) (Val (VAtm [97; 98])) = Ret (Answers [(VAtm [97], VAtm [98], VAtm [97; 98])]) /\
  ctyped (Val (VAtm [97; 98])).
Proof. repeat split. intros x E. inversion E. eexists. split; [reflexivity|]. cbn. lia. Qed.
(** Counterexample: with an atom of 65536 bytes the copy overflows the 1-byte buffer *)
Theorem C26_long_refuted : exists s1 s2, Z.of_nat (length s1) = 65536 /\ forall fuel, Atom_Concat fuel (Val (VAtm s1)) (Val (VAtm s2)) (Var 0) = UB.
Proof. exact concat_long. Qed.

Print Assumptions C25_sub_atom_partial.
Print Assumptions C25_solutions.
Print Assumptions C25_order.
Print Assumptions C25_shared_refuted.
Print Assumptions C25_range_refuted.
Print Assumptions C25_oob_refuted.
Print Assumptions C25_long_refuted.
Print Assumptions C26_concat_partial.
Print Assumptions C26_solutions.
Print Assumptions C26_instantiation.
Print Assumptions C26_long_refuted.
