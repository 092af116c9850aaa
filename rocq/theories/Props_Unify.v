(** Theorems about unification (C09, C10, C11). *)
Require Import ZArith List Bool Lia Floats.SpecFloat.
Require Import Verif.Term_Model Verif.Term_Proofs Verif.Heap_Model Verif.Heap_Proofs.
Require Import Verif.Order_Spec Verif.Order_Proofs.
Require Import Verif.Unify_Model Verif.Unify_Spec.
Require Import Verif.Unify_Proofs Verif.Unify_Proofs2 Verif.Unify_Proofs3.
Import ListNotations.
Open Scope Z_scope.

(** [Unify oc]: Pl_Unify ([oc = false]) or Pl_Unify_Occurs_Check ([oc = true]).  [s]
    is the memory and the trail, [c] the registers HB1, B and the start of the local
    stack.  [wf], [same], [only_vars_bound]: Unify_Spec.v.  A valuation [nu] gives a
    tree, finite or not, to each variable. *)

(** C09: whatever the memory, once unification has succeeded the two terms are the same
    tree for every value of the remaining variables; only unbound variables changed;
    the memory is still well-formed. *)
Theorem C09_unify_sound :
  forall oc fuel c s u v r s', wf (LSSA c) (mm s) ->
  wf_word (LSSA c) (mm s) u -> wf_word (LSSA c) (mm s) v ->
  Unify oc fuel c s u v = Ret (r, s') ->
  only_vars_bound (mm s) (mm s') /\ wf (LSSA c) (mm s') /\
  (r = USucc -> forall nu, same (mm s') nu u v).
Proof.
  intros oc fuel c s u v r s' W Wu Wv E.
  destruct (Unify_sound oc c fuel s u v r s' W Wu Wv E) as [(W' & X & _) H]. auto.
Qed.

(** ... and it never reads outside the terms *)
Theorem C09_unify_safe :
  forall oc fuel c s u v, wf (LSSA c) (mm s) ->
  wf_word (LSSA c) (mm s) u -> wf_word (LSSA c) (mm s) v -> Unify oc fuel c s u v <> UB.
Proof. intros. apply Unify_no_UB; auto. Qed.

(** C10: a failure means there is no solution (with the occurs check: no finite one). *)
Theorem C10_failure_is_final :
  forall oc fuel c s u v s', wf (LSSA c) (mm s) ->
  wf_word (LSSA c) (mm s) u -> wf_word (LSSA c) (mm s) v ->
  Unify oc fuel c s u v = Ret (UFail, s') ->
  forall nu, (oc = true -> forall a, finite_tree (nu a)) -> ~ same (mm s) nu u v.
Proof.
  intros oc fuel c s u v s' W Wu Wv E nu FN Sm.
  destruct (Unify_complete oc c nu fuel FN s u v UFail s' W Wu Wv Sm E) as [N _]. congruence.
Qed.

(** C10: the bindings are most general.  A valuation that makes the two terms equal is a
    valuation of the new memory that leaves every word its tree; conversely a
    valuation of the new memory is a solution of the old one. *)
Theorem C10_most_general :
  forall oc fuel c s u v s', wf (LSSA c) (mm s) ->
  wf_word (LSSA c) (mm s) u -> wf_word (LSSA c) (mm s) v ->
  Unify oc fuel c s u v = Ret (USucc, s') ->
  (forall nu, (oc = true -> forall a, finite_tree (nu a)) -> same (mm s) nu u v ->
     forall x, same_tree (lab (mm s) nu x) (lab (mm s') nu x)) /\
  (forall nu', let nu := fun a => lab (mm s') nu' (REF a) in
     same (mm s) nu u v /\ forall x, same_tree (lab (mm s') nu' x) (lab (mm s) nu x)).
Proof.
  intros oc fuel c s u v s' W Wu Wv E. split.
  - intros nu FN Sm. apply (Unify_complete oc c nu fuel FN s u v USucc s' W Wu Wv Sm E). reflexivity.
  - intros nu' nu. destruct (Unify_sound oc c fuel s u v USucc s' W Wu Wv E) as [(_ & X & _) H].
    assert (K : forall x, same_tree (lab (mm s') nu' x) (lab (mm s) nu x)) by (intros x; apply (ext_lab _ _ nu' X)).
    split; auto. specialize (H eq_refl nu').
    eapply same_tree_trans; [apply same_tree_sym, K|].
    eapply same_tree_trans; [apply H|apply K].
Qed.

(** C10: if there is a solution that gives finite trees to the variables and makes the
    first term finite, unification ends, and (without FD variables) succeeds. *)
Theorem C10_solvable_succeeds :
  forall c s u v nu, wf (LSSA c) (mm s) ->
  wf_word (LSSA c) (mm s) u -> wf_word (LSSA c) (mm s) v ->
  same (mm s) nu u v -> (forall a, exists l, nu a [] l) -> finite_tree (lab (mm s) nu u) ->
  exists F r s', (forall fuel, (F <= fuel)%nat -> Unify false fuel c s u v = Ret (r, s')) /\
    r <> UFail /\ (no_fd (mm s) -> r = USucc).
Proof.
  intros c s u v nu W Wu Wv Sm Hn [_ [N HN]].
  destruct (Unify_terminates c nu Hn N s u v W Wu Wv Sm HN) as (F & [r s'] & HF).
  exists F, r, s'. split; [exact HF|]. specialize (HF F (Nat.le_refl _)).
  destruct (Unify_complete false c nu F ltac:(discriminate) s u v r s' W Wu Wv Sm HF) as [NF _].
  split; auto. intros Nd. destruct r; auto; [congruence|].
  exfalso. exact (Unify_no_fd false c F s u v s' Nd W Wu Wv HF).
Qed.

(** the same with finite terms and substitutions: if two finite terms have a unifier,
    unification ends and succeeds *)
Theorem C10_finite_terms :
  forall c s u v t1 t2 sg, wf (LSSA c) (mm s) -> no_fd (mm s) ->
  wf_word (LSSA c) (mm s) u -> wf_word (LSSA c) (mm s) v ->
  den (mm s) u t1 -> den (mm s) v t2 -> same_term (inst sg t1) (inst sg t2) ->
  exists F s', forall fuel, (F <= fuel)%nat -> Unify false fuel c s u v = Ret (USucc, s').
Proof.
  intros c s u v t1 t2 sg W Nd Wu Wv D1 D2 E.
  destruct (C10_solvable_succeeds c s u v (fun a => tree_of (sg a)) W Wu Wv) as (F & r & s' & H & _ & R).
  - apply (same_iff _ _ _ _ _ _ D1 D2). now apply same_term_norm.
  - intros a. apply tat_finite.
  - destruct (tat_finite (inst sg t1)) as [[l R] [N B]]. split.
    + exists l. now apply (lab_den (mm s) sg u t1 D1).
    + exists N. intros p l' Q. apply (B p l'). now apply (lab_den (mm s) sg u t1 D1).
  - exists F, s'. rewrite <- (R Nd). exact H.
Qed.

(** C10 does not extend to rational solutions: with X = f(X), Y = f(Y) in memory (built
    by two earlier unifications) the goal X = Y has a solution but never ends. *)
Definition cyc_mem : mem := fun a =>
  match a with
  | 0 => Some (Func 102 1) | 1 => Some (Word (STC 0))
  | 2 => Some (Func 102 1) | 3 => Some (Word (STC 2))
  | _ => None
  end.
Theorem C10_rational_refuted :
  exists c s u v, wf (LSSA c) (mm s) /\ wf_word (LSSA c) (mm s) u /\ wf_word (LSSA c) (mm s) v /\
    (forall nu, same (mm s) nu u v) /\ forall fuel, Unify false fuel c s u v = NoFuel.
Proof.
  exists (Cfg 0 200 100), (St cyc_mem []), (STC 0), (STC 2). cbn [LSSA mm].
  assert (WA : forall b, b = 0 \/ b = 2 -> words_at cyc_mem (b + 1) 1).
  { intros b [->| ->] i Hi; assert (i = 0%nat) by lia; subst; cbn; eauto. }
  assert (W0 : forall b, b = 0 \/ b = 2 -> wf_word 100 cyc_mem (STC b)).
  { intros b Hb. exists 102, 1%nat. split; [destruct Hb as [->| ->]; reflexivity|]. split; [lia|].
    split; [intros [Q _]; discriminate|]. split; [lia|auto]. }
  assert (Inv : forall a cc, cyc_mem a = Some cc -> 0 <= a /\
    (cc = Func 102 1 \/ cc = Word (STC 0) \/ cc = Word (STC 2))).
  { intros a cc. unfold cyc_mem. destruct a as [|p|p]; try discriminate.
    - intros E; inversion E; auto with zarith.
    - destruct p as [[p|p|]|[p|p|]|]; try discriminate; intros E; inversion E; split; auto; lia. }
  split; [split|split; [auto|split; [auto|split]]].
  - intros a cc E. now apply Inv in E.
  - intros a w E. apply Inv in E as [_ [E|[E|E]]]; inversion E; auto.
  - intros a b E. apply Inv in E as [_ [E|[E|E]]]; inversion E.
  - intros a w E. apply Inv in E as [_ [E|[E|E]]]; inversion E; eexists; apply drf_other; discriminate.
  - assert (K : forall nu w p l, lab cyc_mem nu w p l -> forall b b', w = STC b -> b = 0 \/ b = 2 ->
      b' = 0 \/ b' = 2 -> lab cyc_mem nu (STC b') p l).
    { intros nu. induction 1 as [| | | | | | | |a f n E|a f n i w p l E Hi Ew D IH];
        intros b b' Q Hb Hb'; inversion Q; subst.
      - assert (f = 102 /\ n = 1%nat) as [-> ->].
        { destruct Hb as [->| ->]; cbn in E; inversion E; auto. }
        constructor. destruct Hb' as [->| ->]; reflexivity.
      - assert (f = 102 /\ n = 1%nat) as [-> ->].
        { destruct Hb as [->| ->]; cbn in E; inversion E; auto. }
        assert (i = 0%nat) by lia. subst i.
        eapply (lab_stc_arg _ _ b' 102 1 0 (STC b')).
        + destruct Hb' as [->| ->]; reflexivity.
        + lia.
        + destruct Hb' as [->| ->]; reflexivity.
        + apply (IH b b'); auto. destruct Hb as [->| ->]; cbn in Ew; congruence. }
    intros nu p l. split; intros H; eapply K; eauto.
  - induction fuel as [|fuel IH]; [reflexivity|]. cbn [Unify].
    destruct fuel as [|fuel]; [reflexivity|]. cbn [deref bind mm].
    unfold unify_nonvar. cbn [word_eqb Z.eqb rd_func cyc_mem bind fst snd mm Pos.eqb Nat.eqb andb].
    exact IH.
Qed.

(** C11: unify_with_occurs_check on a memory of finite terms always ends, leaves a memory
    of finite terms, and (without FD variables) succeeds exactly when the two terms
    have a unifier; the bindings are then one. *)
Theorem C11_occurs_check :
  forall c s u v t1 t2, wf (LSSA c) (mm s) -> acyclic (LSSA c) (mm s) -> finite_vars (mm s) ->
  wf_word (LSSA c) (mm s) u -> wf_word (LSSA c) (mm s) v -> den (mm s) u t1 -> den (mm s) v t2 ->
  exists F r s', (forall fuel, (F <= fuel)%nat -> Unify true fuel c s u v = Ret (r, s')) /\
    acyclic (LSSA c) (mm s') /\ wf (LSSA c) (mm s') /\
    (r = USucc -> exists sg, (forall x t, den (mm s) x t -> den (mm s') x (inst sg t)) /\
        same_term (inst sg t1) (inst sg t2)) /\
    ((exists sg, same_term (inst sg t1) (inst sg t2)) -> r <> UFail) /\
    (no_fd (mm s) -> r <> UFd).
Proof.
  intros c s u v t1 t2 W A [D C] Wu Wv D1 D2.
  destruct (Unify_oc_terminates c D s u v W A C Wu Wv) as (F & [r s'] & HF).
  exists F, r, s'. split; [exact HF|]. specialize (HF F (Nat.le_refl _)).
  pose proof (Unify_acyclic c F s u v r s' W A Wu Wv HF) as A'.
  destruct (Unify_sound true c F s u v r s' W Wu Wv HF) as [(W' & X & _) Sd].
  split; [exact A'|]. split; [exact W'|]. split; [|split].
  - intros R. destruct (bindings_subst (LSSA c) (mm s) (mm s') D C A' W' X) as [sg Hs].
    destruct (den_ext_subst (mm s) (mm s') sg X Hs) as [H _]. exists sg. split; [exact H|].
    specialize (Sd R (fun a => tree_of (TVar a))).
    apply (same_iff _ TVar _ _ _ _ (H _ _ D1) (H _ _ D2)) in Sd. rewrite !inst_var in Sd.
    now apply same_term_norm.
  - intros [sg E]. apply (Unify_complete true c (fun a => tree_of (sg a)) F) with (s := s) (u := u) (v := v) (s' := s'); auto.
    + intros _ a. apply tat_finite.
    + apply (same_iff _ _ _ _ _ _ D1 D2). now apply same_term_norm.
  - intros Nd ->. exact (Unify_no_fd true c F s u v s' Nd W Wu Wv HF).
Qed.

(** Examples.  f(X, g(X)) at 0 and f(Y, g(b)) at 5; a local variable at 100. *)
Definition exu_mem : mem := fun a =>
  match a with
  | 0 => Some (Func 102 2) | 1 => Some (Word (REF 1)) | 2 => Some (Word (STC 3))
  | 3 => Some (Func 103 1) | 4 => Some (Word (REF 1))
  | 5 => Some (Func 102 2) | 6 => Some (Word (REF 6)) | 7 => Some (Word (STC 8))
  | 8 => Some (Func 103 1) | 9 => Some (Word (ATM 98))
  | 10 => Some (Func 102 2) | 11 => Some (Word (REF 11)) | 12 => Some (Word (REF 1))
  | 100 => Some (Word (REF 100))
  | _ => None
  end.
Definition exu_cfg := Cfg 7 200 100.
Lemma exu_wf : wf 100 exu_mem.
Proof.
  assert (Inv : forall a w, exu_mem a = Some (Word w) -> In (a, w)
    [(1, REF 1); (2, STC 3); (4, REF 1); (6, REF 6); (7, STC 8); (9, ATM 98); (11, REF 11);
     (12, REF 1); (100, REF 100)]).
  { intros a w. unfold exu_mem. destruct a as [|p|p]; try discriminate.
    repeat match goal with p : positive |- _ => destruct p as [p|p|]; try discriminate end; intros E; inversion E; subst; cbn; tauto. }
  split.
  - intros a c. unfold exu_mem. destruct a as [|p|p]; try discriminate; lia.
  - intros a w E. apply Inv in E. cbn [In] in E.
    repeat match type of E with _ \/ _ => destruct E as [E|E] end; try (destruct E; fail);
      inversion E; subst; clear E; try exact I; try (cbn; eauto; fail);
      exists 103, 1%nat; cbn; repeat split; try lia;
      try (intros [Q _]; discriminate); intros i Hi; assert (i = 0%nat) by lia; subst; cbn; eauto.
  - intros a b E. apply Inv in E. cbn [In] in E.
    repeat match type of E with _ \/ _ => destruct E as [E|E] end; try (destruct E; fail);
      inversion E; subst; lia.
  - intros a w E. assert (E' := E). apply Inv in E. cbn [In] in E.
    repeat match type of E with _ \/ _ => destruct E as [E|E] end; try (destruct E; fail);
      inversion E; subst; eexists; try (apply drf_other; discriminate); apply drf_self; reflexivity.
Qed.

Example C09_ex : exists s',
  wf (LSSA exu_cfg) exu_mem /\ wf_word 100 exu_mem (STC 0) /\ wf_word 100 exu_mem (STC 5) /\
  Unify false 10 exu_cfg (St exu_mem []) (STC 0) (STC 5) = Ret (USucc, s') /\
  mm s' 6 = Some (Word (REF 1)) /\ mm s' 1 = Some (Word (ATM 98)) /\ tr s' = [TUV 1; TUV 6].
Proof.
  eexists. split; [exact exu_wf|].
  split; [|split; [|split; [cbn; reflexivity|]]];
    try (exists 102, 2%nat; cbn; repeat split; try lia;
      [intros [Q _]; discriminate|intros i Hi; destruct i as [|[|i]]; [cbn; eauto|cbn; eauto|lia]]).
  vm_compute. auto.
Qed.

(** f(X, g(X)) and f(Z, X): no finite unifier; Z = X, then X = g(X) *)
Example C11_ex :
  (exists s', Unify true 10 exu_cfg (St exu_mem []) (STC 0) (STC 10) = Ret (UFail, s')) /\
  (exists s', Unify false 10 exu_cfg (St exu_mem []) (STC 0) (STC 10) = Ret (USucc, s')) /\
  (exists s', Unify true 10 exu_cfg (St exu_mem []) (STC 0) (STC 5) = Ret (USucc, s')) /\
  den exu_mem (STC 0) (TCmp 102 [TVar 1; TCmp 103 [TVar 1]]) /\
  finite_vars exu_mem.
Proof.
  split; [|split; [|split; [|split]]]; try (eexists; cbn; reflexivity).
  - apply den_stc; [reflexivity|]. econstructor; [reflexivity|now constructor|].
    econstructor; [reflexivity| |constructor]. apply den_stc; [reflexivity|].
    econstructor; [reflexivity| |constructor]. now constructor.
  - exists [1; 6; 11; 100]. intros a. unfold exu_mem. destruct a as [|p|p]; try discriminate.
    repeat match goal with p : positive |- _ => destruct p as [p|p|]; try discriminate end; intros E; inversion E; subst; cbn; tauto.
Qed.

(** the example memory holds only finite terms *)
Example C11_ex_acyclic : acyclic 100 exu_mem.
Proof.
  assert (Q1 : den exu_mem (REF 1) (TVar 1)) by now constructor.
  assert (Q3 : den exu_mem (STC 3) (TCmp 103 [TVar 1])).
  { apply den_stc; [reflexivity|]. econstructor; [reflexivity|auto|constructor]. }
  assert (Q8 : den exu_mem (STC 8) (TCmp 103 [TAtm 98])).
  { apply den_stc; [reflexivity|]. econstructor; [reflexivity|constructor|constructor]. }
  assert (Inv : forall a w, exu_mem a = Some (Word w) -> exists t, den exu_mem w t).
  { intros a w. unfold exu_mem at 1. destruct a as [|p|p]; try discriminate.
    repeat match goal with p : positive |- _ => destruct p as [p|p|]; try discriminate end; intros E; inversion E; subst; eauto;
      try (eexists; now constructor). }
  assert (IA : forall n a, words_at exu_mem a n -> exists ts, length ts = n /\ den_args exu_mem a ts).
  { induction n as [|n IH]; intros a Wd; [exists []; split; auto; constructor|].
    destruct (Wd 0%nat ltac:(lia)) as [w E]. rewrite Z.add_0_r in E.
    destruct (Inv a w E) as [t Dt]. destruct (IH (a + 1)) as [ts [Ls Ds]].
    - intros i Hi. destruct (Wd (S i) ltac:(lia)) as [w' E']. exists w'. rewrite <- E'. f_equal. lia.
    - exists (t :: ts). split; [cbn; lia|]. econstructor; eauto. }
  intros w Ww. destruct w as [b|b|b|b|b|b|b]; cbn in Ww.
  - destruct Ww as [w E]. destruct (Inv b w E) as [t Dt].
    destruct (word_eqb w (REF b)) eqn:Q.
    + apply word_eqb_eq in Q. subst. exists (TVar b). now constructor.
    + apply word_eqb_neq in Q. exists t. eapply den_ref; eauto.
  - destruct (IA 2%nat b (proj2 Ww)) as [ts [Ls Ds]].
    destruct ts as [|t1 [|t2 [|]]]; try discriminate. exists (TCmp ATOM_DOT [t1; t2]). now constructor.
  - destruct Ww as (f & n & E & _ & _ & _ & Wd). destruct (IA n (b + 1) Wd) as [ts [Ls Ds]].
    exists (TCmp f ts). constructor; auto. congruence.
  - eexists; constructor.
  - destruct Ww as (d & E & _). eexists. constructor. eauto.
  - eexists; constructor.
  - eexists; constructor.
Qed.

Print Assumptions C09_unify_sound.
Print Assumptions C09_unify_safe.
Print Assumptions C10_failure_is_final.
Print Assumptions C10_most_general.
Print Assumptions C10_solvable_succeeds.
Print Assumptions C10_finite_terms.
Print Assumptions C10_rational_refuted.
Print Assumptions C11_occurs_check.
