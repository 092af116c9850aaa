(** C65: arg/3, functor/3 and =../2 give exactly the solutions and raise the errors of the
    standard.  C66: setarg/4 changes one argument, and backtracking undoes it. *)
Require Import ZArith List Bool Lia.
Require Import Verif.Term_Model Verif.Heap_Model Verif.Heap_Proofs Verif.Unify_Model Verif.Unify_Spec
  Verif.Unify_Proofs Verif.Binding_Model Verif.Copy_Model Verif.Copy_Spec Verif.Mem_Example
  Verif.List_Model Verif.List_Spec Verif.List_Proofs Verif.List_Steps Verif.List_Append Verif.Props_List
  Verif.Univ_Model Verif.Univ_Spec Verif.Univ_Proofs Verif.Univ_Proofs2 Verif.Univ_Proofs3 Verif.Univ_Proofs4
  Verif.Univ_Proofs5.
Import ListNotations.
Open Scope Z_scope.
Local Notation word_ok c s w := (wf_word (LSSA c) (mm (hm s)) w).

(** ** C65 *)

(** [bits]: the size of an unsigned long.  The numbers and the addresses are smaller than
    2^bits: true on the targets where a long has 64 bits *)
Theorem C65_arg : forall bits c s n t x fuel,
  state_ok c s -> word_ok c s n -> word_ok c s t -> word_ok c s x ->
  (forall i, derefs (mm (hm s)) n (INT i) -> i - 1 < 2 ^ bits) -> LSSA c < 2 ^ bits -> 0 < bits ->
  runs (Arg_3 bits fuel c s n t x) (right_answer c s (fun I => is_arg (I n) (I t) (I x))).
Proof. intros. now apply Arg_ok. Qed.
Theorem C65_arg_errors : forall bits c s n t x fuel nw tw,
  state_ok c s -> word_ok c s n -> word_ok c s t -> word_ok c s x ->
  (forall i, derefs (mm (hm s)) n (INT i) -> i - 1 < 2 ^ bits) -> LSSA c < 2 ^ bits -> 0 < bits ->
  derefs (mm (hm s)) n nw -> derefs (mm (hm s)) t tw ->
  runs (Arg_3 bits fuel c s n t x) (fun r => forall e, r = Raise e <-> arg_error nw tw = Some e).
Proof.
  intros. eapply runs_imp; [apply (Arg_errors bits c s n t x fuel nw tw); auto|].
  intros r. unfold errs. destruct (arg_error nw tw) as [e0|]; intros Q e; split; intros E; try congruence.
Qed.

(** the name is not an FD variable *)
Theorem C65_functor : forall maxa c s t f a fuel,
  state_ok c s -> word_ok c s t -> word_ok c s f -> word_ok c s a ->
  (forall b, ~ derefs (mm (hm s)) f (FDV b)) ->
  runs (Functor_3 maxa fuel c s t f a) (right_answer c s (fun I => is_functor (I t) (I f) (I a))).
Proof. intros. now apply Functor_ok. Qed.
(** the term is unbound *)
Theorem C65_functor_errors : forall maxa c s t f a fuel v fw aw,
  state_ok c s -> word_ok c s t -> word_ok c s f -> word_ok c s a ->
  derefs (mm (hm s)) t (REF v) -> derefs (mm (hm s)) f fw -> derefs (mm (hm s)) a aw ->
  runs (Functor_3 maxa fuel c s t f a) (fun r => forall e, r = Raise e <-> functor_error maxa fw aw = Some e).
Proof.
  intros. eapply runs_imp; [apply (Functor_errors maxa c s t f a fuel v fw aw); auto|].
  intros r. unfold errs. destruct (functor_error maxa fw aw) as [e0|]; intros Q e; split; intros E; try congruence.
Qed.

(** the head of the list is not an FD variable *)
Theorem C65_univ : forall nil maxa c s t l k fuel, state_ok c s -> word_ok c s t -> word_ok c s l ->
  (forall a x b, derefs (mm (hm s)) l (LST a) -> mm (hm s) a = Some (Word x) -> ~ derefs (mm (hm s)) x (FDV b)) ->
  runs (Univ_2 nil maxa k fuel c s t l) (right_answer c s (fun I => is_univ nil (I t) (I l))).
Proof. intros. now apply Univ_ok. Qed.
(** a list cell whose list has an end, the term unbound; the heap may overflow before *)
Theorem C65_univ_errors : forall nil maxa c s t l k fuel v a x h n u,
  state_ok c s -> word_ok c s t -> word_ok c s l ->
  derefs (mm (hm s)) t (REF v) -> derefs (mm (hm s)) l (LST a) -> mm (hm s) a = Some (Word x) -> derefs (mm (hm s)) x h ->
  ends (mm (hm s)) l (S n) u ->
  runs (Univ_2 nil maxa k fuel c s t l) (fun r => r = Val Fatal \/
    forall e, r = Raise e <-> univ_error nil maxa h n u = Some e).
Proof.
  intros. eapply runs_imp; [apply (Univ_errors nil maxa c s t l k fuel v a x h n u); auto|].
  intros r [Q|Q]; [now left|right]. revert Q. unfold errs.
  destruct (univ_error nil maxa h n u) as [e0|]; intros Q e; split; intros E; try congruence.
Qed.
(** the second argument is not a list cell *)
Theorem C65_univ_errors_end : forall nil maxa c s t l k fuel v u,
  derefs (mm (hm s)) t (REF v) -> derefs (mm (hm s)) l u -> (forall a, u <> LST a) ->
  runs (Univ_2 nil maxa k fuel c s t l) (fun r => r = Raise
    match u with REF _ => EInst | _ => if word_eqb u (ATM nil) then EEmptyList else EList end).
Proof. intros. now apply (Univ_errors_end nil maxa c s t l k fuel v). Qed.
(** the term is given: only lists and partial lists *)
Theorem C65_univ_errors_term : forall nil maxa c s t l k fuel w n u,
  state_ok c s -> word_ok c s t -> word_ok c s l ->
  derefs (mm (hm s)) t w -> (forall a, w <> REF a) -> ends (mm (hm s)) l n u ->
  runs (Univ_2 nil maxa k fuel c s t l)
    (fun r => forall e, r = Raise e <-> e = EList /\ u <> ATM nil /\ forall b, u <> REF b).
Proof.
  intros nil maxa c s t l k fuel w n u O Wt Wl Dt N En.
  eapply runs_imp; [apply (Univ_errors_term nil maxa c s t l k fuel w n u); auto|].
  intros r Q e. destruct (word_eqb u (ATM nil)) eqn:E1.
  - apply word_eqb_eq in E1 as ->. cbn in Q. split; [intros E; destruct (Q e E)|intros (_ & C & _); congruence].
  - apply word_eqb_neq in E1. destruct u as [b|b|b|i|b|b|i]; cbn [errs] in Q.
    + split; [intros E; destruct (Q e E)|intros (_ & _ & C); destruct (C b eq_refl)].
    + subst r. split; [intros E; injection E as <-; repeat split; discriminate|intros [-> _]; reflexivity].
    + subst r. split; [intros E; injection E as <-; repeat split; discriminate|intros [-> _]; reflexivity].
    + subst r. split; [intros E; injection E as <-; repeat split; try discriminate; auto|intros [-> _]; reflexivity].
    + subst r. split; [intros E; injection E as <-; repeat split; discriminate|intros [-> _]; reflexivity].
    + subst r. split; [intros E; injection E as <-; repeat split; discriminate|intros [-> _]; reflexivity].
    + subst r. split; [intros E; injection E as <-; repeat split; discriminate|intros [-> _]; reflexivity].
Qed.

(** ** Where it fails *)

(** functor(a, X, X): X is bound to a before the arity is checked: type_error(integer, a)
    although the arity was a variable; the call should fail *)
Theorem C65_functor_late_error_refuted : exists maxa c s t f a v, state_ok c s /\ word_ok c s t /\ word_ok c s f /\
  word_ok c s a /\ derefs (mm (hm s)) t (ATM 97) /\ derefs (mm (hm s)) f (REF v) /\ derefs (mm (hm s)) a (REF v) /\
  Functor_3 maxa 10 c s t f a = Ret (Raise EInteger).
Proof.
  exists 255, cfg0, (ex_state [(5, Word (REF 5))] 30), (ATM 97), (REF 5), (REF 5), 5.
  split; [apply state_okb; reflexivity|]. split; [exact I|]. split; [apply wf_wordb_ok; reflexivity|].
  split; [apply wf_wordb_ok; reflexivity|]. split; [apply drf_other; discriminate|].
  split; [apply drf_self; reflexivity|]. split; [apply drf_self; reflexivity|]. reflexivity.
Qed.

(** arg(2^32 + 1, f(a), X) where an unsigned long has 32 bits (64-bit Windows): the number is
    cut to 0 for the test only *)
Theorem C65_arg_32_refuted : exists c s n t x, state_ok c s /\ word_ok c s n /\ word_ok c s t /\ word_ok c s x /\
  Arg_3 32 10 c s n t x = UB.
Proof.
  exists cfg0, (ex_state [(5, Word (REF 5)); (6, Func 102 1); (7, Word (ATM 97))] 30), (INT (2 ^ 32 + 1)), (STC 6), (REF 5).
  split; [apply state_okb; reflexivity|]. split; [exact I|]. split; [apply wf_wordb_ok; reflexivity|].
  split; [apply wf_wordb_ok; reflexivity|]. reflexivity.
Qed.

(** X an FD variable: X =.. [X] holds, but Y =.. [X] is a type error; the same for
    functor(Y, X, 0) *)
Definition ex_fd := ex_state [(5, Word (REF 5)); (6, Word (FDV 6)); (10, Word (REF 6)); (11, Word (ATM 91))] 30.
Theorem C65_univ_fd_refuted : exists nil maxa c s t l, state_ok c s /\ word_ok c s t /\ word_ok c s l /\
  (exists nu, is_univ nil (view s nu t) (view s nu l)) /\
  Univ_2 nil maxa 10 10 c s t l = Ret (Raise EAtomic) /\
  exists x s', word_ok c s x /\ Univ_2 nil maxa 10 10 c s x l = Ret (Val (Ok s')).
Proof.
  exists 91, 255, cfg0, ex_fd, (REF 5), (LST 10).
  split; [apply state_okb; reflexivity|]. split; [apply wf_wordb_ok; reflexivity|]. split; [apply wf_wordb_ok; reflexivity|].
  split.
  - set (nu := fun _ : addr => tleaf (LFdv 6)). exists nu. right. exists (LFdv 6). split; [exact I|].
    assert (V6 : same_tree (view ex_fd nu (FDV 6)) (tleaf (LFdv 6))).
    { intros p l. split; [inversion 1; subst; split; auto|intros [-> ->]; constructor]. }
    split; [apply (lab_unbound (mm (hm ex_fd)) nu 5); reflexivity|].
    eapply same_tree_trans; [apply (lab_lst (mm (hm ex_fd)) nu 10 (REF 6) (ATM 91)); reflexivity|].
    cbn [tlist fold_right]. apply same_tcons; [|apply lab_atom]. eapply same_tree_trans; [|exact V6].
    apply lab_cell. reflexivity.
  - split; [reflexivity|]. exists (REF 6), ex_fd. split; [apply wf_wordb_ok; reflexivity|reflexivity].
Qed.
Theorem C65_functor_fd_refuted : exists maxa c s t f a, state_ok c s /\ word_ok c s t /\ word_ok c s f /\ word_ok c s a /\
  (exists nu, is_functor (view s nu t) (view s nu f) (view s nu a)) /\
  Functor_3 maxa 10 c s t f a = Ret (Raise EAtomic).
Proof.
  exists 255, cfg0, ex_fd, (REF 5), (REF 6), (INT 0).
  split; [apply state_okb; reflexivity|]. split; [apply wf_wordb_ok; reflexivity|]. split; [apply wf_wordb_ok; reflexivity|].
  split; [exact I|]. split; [|reflexivity].
  set (nu := fun _ : addr => tleaf (LFdv 6)). exists nu. right. exists (LFdv 6). split; [exact I|].
  assert (V6 : same_tree (view ex_fd nu (FDV 6)) (tleaf (LFdv 6))).
  { intros p l. split; [inversion 1; subst; split; auto|intros [-> ->]; constructor]. }
  split; [apply (lab_unbound (mm (hm ex_fd)) nu 5); reflexivity|].
  split; [eapply same_tree_trans; [|exact V6]; apply lab_cell; reflexivity|apply lab_int_tree].
Qed.

(** ** C66 *)
(** [tt], [ff]: the atoms true and false.  The new value is not an unbound variable of the local stack, and
    no argument cell is itself an FD variable *)
Theorem C66_setarg : forall tt ff c s no t v undo fuel nw tw vw uw,
  state_ok c s -> word_ok c s no -> word_ok c s t -> word_ok c s v -> word_ok c s undo ->
  derefs (mm (hm s)) no nw -> derefs (mm (hm s)) t tw -> derefs (mm (hm s)) v vw -> derefs (mm (hm s)) undo uw ->
  (forall i, nw = INT i -> i <= 2 ^ 64) -> LSSA c < 2 ^ 64 ->
  (forall b, vw = REF b -> b < LSSA c) ->
  (forall n a i, args_at (mm (hm s)) t n a -> (i < n)%nat -> mm (hm s) (a + Z.of_nat i) <> Some (Word (FDV (a + Z.of_nat i)))) ->
  runs (Setarg_4 tt ff fuel c s no t v undo) (fun r =>
    match r with
    | Raise e => setarg_error tt ff nw tw vw uw = Some e
    | Val r =>
      setarg_error tt ff nw tw vw uw = None /\
      match r with
      | Ok s' => exists n a i, args_at (mm (hm s)) t n a /\ nw = INT (Z.of_nat i + 1) /\ (i < n)%nat /\
          changed s s' (a + Z.of_nat i) vw /\ state_ok c s' /\
          (uw = ATM tt -> exists m, Untrail (length (tr (hm s))) (tr (hm s')) (mm (hm s')) = Some m /\
             forall x, older c x -> m x = mm (hm s) x) /\
          (uw <> ATM tt -> tr (hm s') = tr (hm s))
      | No => forall n a i, args_at (mm (hm s)) t n a -> nw = INT (Z.of_nat i + 1) -> (n <= i)%nat
      | _ => False
      end
    end).
Proof. intros. now apply Setarg_ok. Qed.

(** setarg(1, f(a), X) with X an unbound variable of the local stack: the heap refers to the
    local stack *)
Theorem C66_setarg_local_refuted : exists tt ff c s no t v undo s', state_ok c s /\ word_ok c s no /\ word_ok c s t /\
  word_ok c s v /\ word_ok c s undo /\ Setarg_4 tt ff 10 c s no t v undo = Ret (Val (Ok s')) /\ ~ state_ok c s'.
Proof.
  set (s := ex_state [(6, Func 102 1); (7, Word (ATM 97)); (101, Word (REF 101))] 30).
  set (s' := match Setarg_4 1 2 10 cfg0 s (INT 1) (STC 6) (REF 101) (ATM 1) with Ret (Val (Ok s')) => s' | _ => s end).
  exists 1, 2, cfg0, s, (INT 1), (STC 6), (REF 101), (ATM 1), s'.
  split; [apply state_okb; reflexivity|]. split; [exact I|]. split; [apply wf_wordb_ok; reflexivity|].
  split; [apply wf_wordb_ok; reflexivity|]. split; [exact I|]. split; [reflexivity|]. intros (W & _).
  assert (Q : mm (hm s') 7 = Some (Word (REF 101))) by reflexivity.
  destruct (wf_ref _ _ W 7 101 Q) as [P|P]; cbn in P; lia.
Qed.
(** setarg(1, T, b, true), then setarg(1, T, c, false): backtracking gives the first value
    back, the value which should stay is lost *)
Theorem C66_setarg_lost_refuted : exists tt ff c s t s1 s2 m, state_ok c s /\ word_ok c s t /\
  Setarg_4 tt ff 10 c s (INT 1) t (ATM 98) (ATM tt) = Ret (Val (Ok s1)) /\
  Setarg_4 tt ff 10 c s1 (INT 1) t (ATM 99) (ATM ff) = Ret (Val (Ok s2)) /\
  Untrail (length (tr (hm s))) (tr (hm s2)) (mm (hm s2)) = Some m /\
  term_of 10 (mm (hm s2)) t = Some (TCmp 102 [TAtm 99]) /\ term_of 10 m t = Some (TCmp 102 [TAtm 97]).
Proof.
  set (s := ex_state [(6, Func 102 1); (7, Word (ATM 97))] 30). set (c := Cfg 30 100 100).
  set (s1 := match Setarg_4 1 2 10 c s (INT 1) (STC 6) (ATM 98) (ATM 1) with Ret (Val (Ok s')) => s' | _ => s end).
  set (s2 := match Setarg_4 1 2 10 c s1 (INT 1) (STC 6) (ATM 99) (ATM 2) with Ret (Val (Ok s')) => s' | _ => s end).
  set (m := match Untrail 0 (tr (hm s2)) (mm (hm s2)) with Some m => m | None => mm (hm s) end).
  exists 1, 2, c, s, (STC 6), s1, s2, m.
  split; [apply state_okb; reflexivity|]. split; [apply wf_wordb_ok; reflexivity|].
  split; [reflexivity|]. split; [reflexivity|]. split; [reflexivity|]. split; reflexivity.
Qed.

(** ** Examples *)
Definition showc (ws : list word) (o : outcome (chk (lres hst))) : outcome (chk (lres (list (option term)))) :=
  do r <- o; Ret (match r with
    | Val (Ok s) => Val (Ok (map (term_of 20 (mm (hm s))) ws))
    | Val No => Val No | Val Fatal => Val Fatal | Val Fd => Val Fd | Val Err => Val Err
    | Raise e => Raise e end).
(** variables X = 1, Y = 2; f(a, X) at 5, [b] at 10, [f,a,X] at 14, the list [f|X] at 20, ['.',a,X] at 22 *)
Definition exu := ex_state [(1, Word (REF 1)); (2, Word (REF 2));
  (5, Func 102 2); (6, Word (ATM 97)); (7, Word (REF 1));
  (10, Word (ATM 98)); (11, Word (ATM 91));
  (14, Word (ATM 102)); (15, Word (LST 16)); (16, Word (ATM 97)); (17, Word (LST 18)); (18, Word (REF 1)); (19, Word (ATM 91));
  (20, Word (ATM 102)); (21, Word (REF 1)); (22, Word (ATM ATOM_DOT)); (23, Word (LST 16))] 40.
Example C65_ex_state : state_ok cfg0 exu /\ word_ok cfg0 exu (STC 5) /\ word_ok cfg0 exu (LST 14) /\
  word_ok cfg0 exu (REF 1) /\ word_ok cfg0 exu (REF 2) /\ word_ok cfg0 exu (LST 20) /\ word_ok cfg0 exu (LST 22) /\
  ends (mm (hm exu)) (LST 14) 3 (ATM 91) /\ derefs (mm (hm exu)) (REF 2) (REF 2) /\ args_at (mm (hm exu)) (STC 5) 2 6.
Proof.
  split; [apply state_okb; reflexivity|]. repeat (split; [apply wf_wordb_ok; reflexivity|]).
  split; [|split; [apply drf_self; reflexivity|]].
  - do 3 (eapply ends_cell; [apply drf_other; discriminate|reflexivity|]). apply ends_end; [apply drf_other; discriminate|discriminate].
  - right. exists 102. split; [apply drf_other; discriminate|reflexivity].
Qed.
(** arg(1, f(a,X), Y), arg(3, f(a,X), Y), arg(0, f(a,X), Y), arg(X, f(a,X), Y), arg(1, a, Y) *)
Example C65_arg_ex : showc [REF 2] (Arg_3 64 20 cfg0 exu (INT 1) (STC 5) (REF 2)) = Ret (Val (Ok [Some (TAtm 97)])) /\
  showc [REF 2] (Arg_3 64 20 cfg0 exu (INT 3) (STC 5) (REF 2)) = Ret (Val No) /\
  showc [REF 2] (Arg_3 64 20 cfg0 exu (INT 0) (STC 5) (REF 2)) = Ret (Val No) /\
  showc [REF 2] (Arg_3 64 20 cfg0 exu (INT (-1)) (STC 5) (REF 2)) = Ret (Raise ENegative) /\
  showc [REF 2] (Arg_3 64 20 cfg0 exu (REF 1) (STC 5) (REF 2)) = Ret (Raise EInst) /\
  showc [REF 2] (Arg_3 64 20 cfg0 exu (INT 1) (ATM 97) (REF 2)) = Ret (Raise ECompound).
Proof. repeat split; vm_compute; reflexivity. Qed.
(** functor(f(a,X), X, Y), functor([b], X, Y), functor(X, f, 2), functor(X, '.', 2), functor(X, 7, 0),
    functor(X, 7, 1), functor(X, f, -1), functor(X, Y, 0), functor(X, f, 300) *)
Example C65_functor_ex :
  showc [REF 1; REF 2] (Functor_3 255 20 cfg0 exu (STC 5) (REF 1) (REF 2)) = Ret (Val (Ok [Some (TAtm 102); Some (TInt 2)])) /\
  showc [REF 1; REF 2] (Functor_3 255 20 cfg0 exu (LST 10) (REF 1) (REF 2)) = Ret (Val (Ok [Some (TAtm ATOM_DOT); Some (TInt 2)])) /\
  showc [REF 1] (Functor_3 255 20 cfg0 exu (REF 1) (ATM 102) (INT 2)) = Ret (Val (Ok [Some (TCmp 102 [TVar 41; TVar 42])])) /\
  showc [REF 1] (Functor_3 255 20 cfg0 exu (REF 1) (ATM ATOM_DOT) (INT 2)) = Ret (Val (Ok [Some (TCmp ATOM_DOT [TVar 40; TVar 41])])) /\
  showc [REF 1] (Functor_3 255 20 cfg0 exu (REF 1) (INT 7) (INT 0)) = Ret (Val (Ok [Some (TInt 7)])) /\
  showc [REF 1] (Functor_3 255 20 cfg0 exu (REF 1) (INT 7) (INT 1)) = Ret (Raise EAtom) /\
  showc [REF 1] (Functor_3 255 20 cfg0 exu (REF 1) (ATM 102) (INT (-1))) = Ret (Raise ENegative) /\
  showc [REF 1] (Functor_3 255 20 cfg0 exu (REF 1) (REF 2) (INT 0)) = Ret (Raise EInst) /\
  showc [REF 1] (Functor_3 255 20 cfg0 exu (REF 1) (ATM 102) (INT 300)) = Ret (Raise EMaxArity).
Proof. repeat split; vm_compute; reflexivity. Qed.
(** f(a,X) =.. Y, f(a,X) =.. [f|X], Y =.. [f,a,X], Y =.. ['.',a,X], Y =.. [b], Y =.. [f|X], Y =.. [], a =.. b *)
Example C65_univ_ex :
  showc [REF 2] (Univ_2 91 255 20 20 cfg0 exu (STC 5) (REF 2)) = Ret (Val (Ok [L [TAtm 102; TAtm 97; TVar 1]])) /\
  showc [REF 2] (Univ_2 91 255 20 20 cfg0 exu (REF 2) (LST 14)) = Ret (Val (Ok [Some (TCmp 102 [TAtm 97; TVar 1])])) /\
  showc [REF 2] (Univ_2 91 255 20 20 cfg0 exu (REF 2) (LST 22)) = Ret (Val (Ok [Some (TCmp ATOM_DOT [TAtm 97; TVar 1])])) /\
  showc [REF 2] (Univ_2 91 255 20 20 cfg0 exu (REF 2) (LST 10)) = Ret (Val (Ok [Some (TAtm 98)])) /\
  showc [REF 2] (Univ_2 91 255 20 20 cfg0 exu (REF 2) (LST 20)) = Ret (Raise EInst) /\
  showc [REF 2] (Univ_2 91 255 20 20 cfg0 exu (REF 2) (ATM 91)) = Ret (Raise EEmptyList) /\
  showc [REF 2] (Univ_2 91 1 20 20 cfg0 exu (REF 2) (LST 14)) = Ret (Raise EMaxArity) /\
  showc [REF 2] (Univ_2 91 255 20 20 cfg0 exu (ATM 97) (ATM 98)) = Ret (Raise EList).
Proof. repeat split; vm_compute; reflexivity. Qed.
(** setarg(2, f(a,X), b), setarg(3, f(a,X), b), setarg(1, f(a,X), g(..), false) *)
Example C66_ex :
  showc [STC 5; REF 1] (Setarg_4 1 2 20 cfg0 exu (INT 2) (STC 5) (ATM 98) (ATM 1)) = Ret (Val (Ok [Some (TCmp 102 [TAtm 97; TAtm 98]); Some (TVar 1)])) /\
  showc [STC 5] (Setarg_4 1 2 20 cfg0 exu (INT 3) (STC 5) (ATM 98) (ATM 1)) = Ret (Val No) /\
  showc [STC 5] (Setarg_4 1 2 20 cfg0 exu (INT 0) (STC 5) (ATM 98) (ATM 1)) = Ret (Val No) /\
  showc [STC 5] (Setarg_4 1 2 20 cfg0 exu (INT 1) (STC 5) (LST 10) (ATM 2)) = Ret (Raise EAtomic) /\
  showc [STC 5] (Setarg_4 1 2 20 cfg0 exu (INT 1) (STC 5) (LST 10) (ATM 3)) = Ret (Raise EBoolean).
Proof. repeat split; vm_compute; reflexivity. Qed.

Print Assumptions C65_arg.
Print Assumptions C65_arg_errors.
Print Assumptions C65_functor.
Print Assumptions C65_functor_errors.
Print Assumptions C65_univ.
Print Assumptions C65_univ_errors.
Print Assumptions C65_univ_errors_end.
Print Assumptions C65_univ_errors_term.
Print Assumptions C65_functor_late_error_refuted.
Print Assumptions C65_arg_32_refuted.
Print Assumptions C65_univ_fd_refuted.
Print Assumptions C65_functor_fd_refuted.
Print Assumptions C66_setarg.
Print Assumptions C66_setarg_local_refuted.
Print Assumptions C66_setarg_lost_refuted.
