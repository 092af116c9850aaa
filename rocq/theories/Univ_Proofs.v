Require Import ZArith List Bool Lia PeanoNat Floats.SpecFloat.
Require Import Verif.Term_Model Verif.Term_Proofs Verif.Heap_Model Verif.Heap_Proofs.
Require Import Verif.Unify_Model Verif.Unify_Spec Verif.Unify_Proofs Verif.Unify_Proofs2.
Require Import Verif.Binding_Model Verif.Binding_Spec Verif.Binding_Proofs Verif.Copy_Model.
Require Import Verif.List_Model Verif.List_Spec Verif.List_Proofs Verif.List_Steps.
Require Import Verif.Univ_Model Verif.Univ_Spec.
Import ListNotations.
Open Scope Z_scope.
Local Notation word_ok c s w := (wf_word (LSSA c) (mm (hm s)) w).

(** ** Steps *)
Lemma step_equiv c s s' C E : step c s s' C top -> resp c s E ->
  (forall nu, E (view s nu) <-> C (view s nu)) -> step c s s' E top.
Proof.
  intros S Rs H. assert (S0 := S). destruct S as [O1 W1 D1 I1 U1 R1 R1'].
  apply (step_of c s s' C); auto; [intros nu Q; now apply H|].
  intros nu'. split; [|intros _; exact I]. intros _. destruct (D1 nu') as [nu A].
  apply (Rs (view s nu)); [now apply agree_sym|]. apply H. eapply R1; eauto. apply I1. exact I.
Qed.
Lemma step_and c s s1 s2 C1 C2 : step c s s1 C1 top -> step c s1 s2 C2 top -> resp c s C2 ->
  step c s s2 (fun I => C1 I /\ C2 I) top.
Proof.
  intros S1 S2 R2. eapply step_trans; [|exact S2].
  assert (Q := S1). destruct Q as [O1 W1 D1 I1 U1 R1 R1'].
  apply (step_of c s s1 C1); auto.
  - intros X Y A [K1 K2]. split; [eapply R1|eapply R2]; eauto.
  - eapply resp_words; eauto.
  - intros nu [K _]. exact K.
  - intros nu'. split; [|tauto]. intros K. split; [|exact K]. apply I1. exact I.
Qed.
Lemma step_and_none c s s1 C1 C2 : step c s s1 C1 top -> no_solution s1 C2 -> resp c s C2 ->
  no_solution s (fun I => C1 I /\ C2 I).
Proof.
  intros S1 N R2. eapply step_none; [|exact N]. destruct (S1) as [O1 W1 D1 I1 U1 R1 R1'].
  apply (step_of c s s1 C1); auto.
  - intros X Y A [K1 K2]. split; [eapply R1|eapply R2]; eauto.
  - eapply resp_words; eauto.
  - intros nu [K _]. exact K.
  - intros nu'. split; [|tauto]. intros K. split; [|exact K]. apply I1. exact I.
Qed.
Lemma step_answer c s s' E : step c s s' E top -> answers_goal c s s' E.
Proof. intros S. now apply step_goal. Qed.

(** ** Trees of words *)
Lemma Forall2_len {A B} (R : A -> B -> Prop) l l' : Forall2 R l l' -> length l = length l'.
Proof. induction 1; cbn; congruence. Qed.
Lemma same_leaf_root l l' : same_tree (tleaf l) (tleaf l') -> l = l'.
Proof. intros A. destruct (proj1 (A [] l) (conj eq_refl eq_refl)) as [_ Q]. auto. Qed.
Lemma leaf_root t l : same_tree t (tleaf l) -> t [] l.
Proof. intros A. apply A. split; auto. Qed.
Lemma tatom_leaf i : same_tree (tatom i) (tleaf (LAtm i)). Proof. apply same_tree_refl. Qed.
Lemma tint_leaf i : same_tree (tint i) (tleaf (LInt i)). Proof. apply same_tree_refl. Qed.
Lemma node_root t f ts : same_tree t (tnode f ts) -> t [] (LFun f (length ts)).
Proof. intros A. apply A. reflexivity. Qed.
Lemma same_node f ts ts' : Forall2 same_tree ts ts' -> same_tree (tnode f ts) (tnode f ts').
Proof.
  intros F p l. destruct p as [|i p]; cbn [tnode].
  - now rewrite (Forall2_len _ _ _ F).
  - revert i. induction F as [|x y l1 l2 A F IH]; intros i; destruct i; cbn; try tauto; auto.
Qed.
Lemma node_inv f ts g us : same_tree (tnode f ts) (tnode g us) -> f = g /\ Forall2 same_tree ts us.
Proof.
  intros A. assert (Q : LFun f (length ts) = LFun g (length us)) by (apply (A [] (LFun f (length ts))); reflexivity).
  injection Q as -> E. split; auto.
  assert (B : forall i p l, tnode g ts (i :: p) l <-> tnode g us (i :: p) l) by (intros; apply A). clear A. cbn [tnode] in B.
  revert us E B. induction ts as [|t ts IH]; intros [|u us] E B; try discriminate; constructor.
  - intros p l. exact (B 0%nat p l).
  - apply IH; [now injection E|]. intros i. exact (B (S i)).
Qed.
Lemma cons_node h t : same_tree (tcons h t) (tnode ATOM_DOT [h; t]).
Proof.
  intros p l. destruct p as [|i p]; [apply iff_refl|]. destruct i as [|[|i]]; cbn; try tauto.
  destruct i; cbn; tauto.
Qed.

(** the words of a block of cells *)
Definition refs (a : addr) (n : nat) : list word := map (fun i => REF (a + Z.of_nat i)) (seq 0 n).
Lemma refs_length a n : length (refs a n) = n.
Proof. unfold refs. now rewrite map_length, seq_length. Qed.
Lemma refs_nth a n i : (i < n)%nat -> nth_error (refs a n) i = Some (REF (a + Z.of_nat i)).
Proof.
  intros L. unfold refs. rewrite nth_error_map. rewrite (nth_error_nth' _ 0%nat) by (now rewrite seq_length).
  rewrite seq_nth by auto. reflexivity.
Qed.
Lemma refs_S a n : refs a (S n) = REF a :: refs (a + 1) n.
Proof.
  unfold refs. cbn [seq map]. rewrite Z.add_0_r. f_equal. rewrite <- seq_shift, map_map.
  apply map_ext. intros i. f_equal. lia.
Qed.

Lemma lab_stc_node m nu a f n : m a = Some (Func f n) -> words_at m (a + 1) n ->
  same_tree (lab m nu (STC a)) (tnode f (map (lab m nu) (refs (a + 1) n))).
Proof.
  intros E Ws p l. destruct p as [|i p].
  - cbn [tnode]. rewrite map_length, refs_length. now apply lab_stc_nil.
  - cbn [tnode]. rewrite (lab_stc_iff m nu a f n i p l E). destruct (Nat.lt_ge_cases i n) as [L|L].
    + rewrite nth_error_map, refs_nth by auto. cbn [option_map]. split; [intros (_ & _ & Q); exact Q|].
      intros Q. split; auto.
    + replace (nth_error _ i) with (@None tree); [|symmetry; apply nth_error_None; now rewrite map_length, refs_length].
      split; [lia|intros []].
Qed.
Lemma lab_lst_node m nu a : words_at m a 2 ->
  same_tree (lab m nu (LST a)) (tnode ATOM_DOT (map (lab m nu) (refs a 2))).
Proof.
  intros Ws. destruct (Ws 0%nat ltac:(lia)) as [x Ex]. destruct (Ws 1%nat ltac:(lia)) as [y Ey].
  change (a + Z.of_nat 1) with (a + 1) in Ey. rewrite Z.add_0_r in Ex.
  rewrite (refs_S a 1), (refs_S (a + 1) 0). change (refs (a + 1 + 1) 0) with (@List.nil word). cbn [map].
  eapply same_tree_trans; [apply (lab_lst m nu a x y); auto|]. eapply same_tree_trans; [apply cons_node|].
  apply same_node. constructor; [|constructor; [|constructor]]; apply same_tree_sym, lab_cell; auto.
Qed.

(** a dereferenced word which is not a variable: a constant or a compound term *)
Definition leaf_of (m : mem) (w : word) : option label :=
  match w with
  | INT n => Some (LInt n)
  | ATM i => Some (LAtm i)
  | FDV a => Some (LFdv a)
  | FLT a => match m a with Some (Dbl d) => Some (LFlt (norm_flt d)) | _ => None end
  | _ => None
  end.
Lemma leaf_lab L m w : wf_word L m w -> match w with INT _ | ATM _ | FDV _ | FLT _ => True | _ => False end ->
  exists l, atomic l /\ forall nu, same_tree (lab m nu w) (tleaf l).
Proof.
  intros Ww K. destruct w as [a|a|a|i|a|a|i]; try destruct K.
  - exists (LAtm i). split; [exact I|]. intros nu. apply lab_atom.
  - destruct Ww as (d & E & _). exists (LFlt (norm_flt d)). split; [exact I|]. intros nu p l. split.
    + inversion 1; subst. split; congruence.
    + intros [-> ->]. now constructor.
  - exists (LFdv a). split; [exact I|]. intros nu p l. split; [inversion 1; subst; split; auto|intros [-> ->]; constructor].
  - exists (LInt i). split; [exact I|]. intros nu. apply lab_int_tree.
Qed.

(** ** New cells *)
Definition grows (m m' : mem) : Prop := forall x c, m x = Some c -> m' x = Some c.
Lemma grows_words m m' a n : grows m m' -> words_at m a n -> words_at m' a n.
Proof. intros G W i Hi. destruct (W i Hi) as [w E]. eauto. Qed.
Lemma grows_wf_word L m m' w : grows m m' -> wf_word L m w -> wf_word L m' w.
Proof.
  intros K Ww. destruct w as [b|b|b|i|b|b|k]; cbn in *; auto.
  - destruct Ww as [w' E]. eauto.
  - destruct Ww as [Q1 Q2]. split; auto. eapply grows_words; eauto.
  - destruct Ww as (f & n & E & N' & F & Q & Ws). exists f, n. repeat split; auto. eapply grows_words; eauto.
  - destruct Ww as (d & E & N' & Q). exists d. auto.
  - destruct Ww as [E Q]. auto.
Qed.
Lemma grows_derefs m m' u v : grows m m' -> derefs m u v -> derefs m' u v.
Proof.
  intros G. induction 1 as [x Ex|x y y' Ex Nx D IH|y Ny].
  - apply drf_self. auto.
  - eapply drf_step; eauto.
  - now apply drf_other.
Qed.
Lemma grows_lab L m m' nu w : wf L m -> grows m m' -> wf_word L m w ->
  same_tree (lab m' nu w) (lab m nu w).
Proof.
  intros W K Ww p l. split; intros Q; revert Ww.
  - induction Q as [x p l E N1|x y p l E N1 D IH|n|i|x d E|x|x|x i y p l Hi E D IH|x f n E|x f n i y p l E Hi E2 D IH];
      intros Ww; try solve [constructor].
    + destruct Ww as [w' Ew]. rewrite (K _ _ Ew) in E. injection E as ->. now apply lab_var.
    + destruct Ww as [w' Ew]. rewrite (K _ _ Ew) in E. injection E as ->. eapply lab_ref; eauto. apply IH. eapply wf_cell; eauto.
    + destruct Ww as (d' & Ed & _). rewrite (K _ _ Ed) in E. injection E as ->. now constructor.
    + destruct Ww as [_ Ws]. destruct (Ws i Hi) as [w' Ew]. rewrite (K _ _ Ew) in E. injection E as ->.
      eapply lab_lst_arg; eauto. apply IH. eapply wf_cell; eauto.
    + destruct Ww as (f' & n' & E' & _). rewrite (K _ _ E') in E. injection E as -> ->. eapply lab_stc; eauto.
    + destruct Ww as (f' & n' & E' & _ & _ & _ & Ws). rewrite (K _ _ E') in E. injection E as -> ->.
      destruct (Ws i Hi) as [w' Ew]. rewrite (K _ _ Ew) in E2. injection E2 as ->.
      eapply lab_stc_arg; eauto. apply IH. eapply wf_cell; eauto.
  - induction Q as [x p l E N1|x y p l E N1 D IH|n|i|x d E|x|x|x i y p l Hi E D IH|x f n E|x f n i y p l E Hi E2 D IH];
      intros Ww; try solve [constructor].
    + apply lab_var; auto.
    + eapply lab_ref; eauto. apply IH. eapply wf_cell; eauto.
    + now constructor; apply K.
    + eapply lab_lst_arg; eauto. apply IH. eapply wf_cell; eauto.
    + eapply lab_stc; eauto.
    + eapply lab_stc_arg; eauto. apply IH. eapply wf_cell; eauto.
Qed.
(** the new cells: no word, an unbound variable, or a word of the old memory *)
Definition fresh_cell (c : cfg) (s : hst) (x : addr) (v : cell) : Prop :=
  0 <= x < LSSA c /\ (forall w, v = Word w -> new_ok c s x w).
Lemma grows_wf c s m' : wf (LSSA c) (mm (hm s)) -> grows (mm (hm s)) m' ->
  (forall x v, m' x = Some v -> mm (hm s) x = Some v \/ fresh_cell c s x v) -> wf (LSSA c) m'.
Proof.
  intros W G N. split.
  - intros x v E. destruct (N x v E) as [E'|[P _]]; [eapply wf_pos; eauto|lia].
  - intros x w E. destruct (N x _ E) as [E'|[P Q]].
    + eapply grows_wf_word; [exact G|]. eapply wf_cell; eauto.
    + destruct (Q w eq_refl) as [->|[Ww _]]; [cbn; eauto|]. eapply grows_wf_word; eauto.
  - intros x b E. destruct (N x _ E) as [E'|[P Q]]; [eapply wf_ref; eauto|].
    destruct (Q _ eq_refl) as [Eb|[_ Gb]]; [left; injection Eb as ->; lia|right; apply Gb; reflexivity].
  - intros x w E. destruct (N x _ E) as [E'|[P Q]].
    + destruct (wf_drf _ _ W _ _ E') as [u D]. exists u. eapply grows_derefs; eauto.
    + destruct (Q w eq_refl) as [->|[Ww _]]; [exists (REF x); now apply drf_self|].
      destruct (derefs_total _ _ W w Ww) as [u D]. exists u. eapply grows_derefs; eauto.
Qed.
