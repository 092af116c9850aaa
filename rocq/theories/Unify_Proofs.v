Require Import ZArith List Bool Lia PeanoNat Floats.SpecFloat.
Require Import Verif.Term_Model Verif.Term_Proofs Verif.Heap_Model Verif.Heap_Proofs.
Require Import Verif.Unify_Model Verif.Unify_Spec.
Import ListNotations.
Open Scope Z_scope.

(** ** dereference *)
Lemma derefs_total L m : wf L m -> forall w, wf_word L m w -> exists w', derefs m w w'.
Proof.
  intros W w Ww. destruct w as [a| | | | | |]; try (eexists; apply drf_other; discriminate).
  destruct Ww as [w E]. destruct (wf_drf L m W a w E) as [w' D].
  destruct (word_eqb w (REF a)) eqn:Q.
  - apply word_eqb_eq in Q. subst. eauto.
  - apply word_eqb_neq in Q. exists w'. eapply drf_step; eauto.
Qed.

Lemma derefs_wf L m w w' : wf L m -> derefs m w w' -> wf_word L m w -> wf_word L m w'.
Proof.
  intros W. induction 1 as [a E|a w w' E N D IH|w N]; intros Ww; auto.
  apply IH. eapply wf_cell; eauto.
Qed.

Lemma deref_ok L m w f : wf L m -> wf_word L m w ->
  deref f m w = NoFuel \/
  exists w', deref f m w = Ret w' /\ derefs m w w' /\ wf_word L m w' /\
    ((exists a, w' = REF a /\ m a = Some (Word (REF a))) \/ (forall a, w' <> REF a)).
Proof.
  intros W Ww. destruct (derefs_total L m W w Ww) as [w' D].
  destruct (derefs_fun _ _ _ D) as [F H].
  destruct (deref f m w) as [x| |] eqn:E.
  - right. assert (x = w').
    { pose proof (deref_mono _ _ _ _ E ltac:(discriminate) (Nat.max f F) ltac:(lia)) as M.
      rewrite H in M by lia. now inversion M. }
    subst. exists w'. repeat split; auto. eapply derefs_wf; eauto. eapply derefs_result; eauto.
  - exfalso. pose proof (deref_mono _ _ _ _ E ltac:(discriminate) (Nat.max f F) ltac:(lia)) as M.
    rewrite H in M by lia. discriminate.
  - auto.
Qed.

(** ** labels *)
Lemma same_tree_refl t : same_tree t t. Proof. split; auto. Qed.
Lemma same_tree_sym t1 t2 : same_tree t1 t2 -> same_tree t2 t1.
Proof. intros H p l. symmetry. apply H. Qed.
Lemma same_tree_trans t1 t2 t3 : same_tree t1 t2 -> same_tree t2 t3 -> same_tree t1 t3.
Proof. intros H1 H2 p l. rewrite (H1 p l). apply H2. Qed.

(** the tree of a reference is the tree of the cell *)
Lemma lab_cell m nu a w : m a = Some (Word w) -> same_tree (lab m nu (REF a)) (lab m nu w).
Proof.
  intros E p l. split; intros H.
  - inversion H; subst; [|congruence].
    assert (w = REF a) by congruence. subst. auto.
  - destruct w as [b|b|b|i|b|b|k];
      try (eapply lab_ref; [exact E|discriminate|exact H]).
    destruct (Z.eq_dec b a) as [->|N]; auto. eapply lab_ref; eauto. congruence.
Qed.

Lemma lab_derefs m nu w w' : derefs m w w' -> same_tree (lab m nu w) (lab m nu w').
Proof.
  induction 1 as [a E|a w w' E N D IH|w N]; [apply same_tree_refl| |apply same_tree_refl].
  eapply same_tree_trans; [apply lab_cell; eauto|auto].
Qed.

Lemma lab_unbound m nu a : m a = Some (Word (REF a)) -> same_tree (lab m nu (REF a)) (nu a).
Proof.
  intros E p l. split; intros H; [|now apply lab_var].
  inversion H; subst; auto. congruence.
Qed.

(** argument of a compound *)
Lemma lab_lst_iff m nu a i p l : lab m nu (LST a) (i :: p) l <->
  (i < 2)%nat /\ (exists w, m (a + Z.of_nat i) = Some (Word w)) /\ lab m nu (REF (a + Z.of_nat i)) p l.
Proof.
  split; intros H.
  - inversion H; subst. split; auto. split; eauto. apply (lab_cell m nu _ w); auto.
  - destruct H as (Hi & [w E] & H). apply (lab_cell m nu _ w E) in H. econstructor; eauto.
Qed.
Lemma lab_stc_iff m nu a f n i p l : m a = Some (Func f n) -> (lab m nu (STC a) (i :: p) l <->
  (i < n)%nat /\ (exists w, m (a + 1 + Z.of_nat i) = Some (Word w)) /\
  lab m nu (REF (a + 1 + Z.of_nat i)) p l).
Proof.
  intros E. split; intros H.
  - inversion H; subst. assert (n0 = n) by congruence. subst n0.
    split; auto. split; eauto. apply (lab_cell m nu _ w); auto.
  - destruct H as (Hi & [w E'] & H). apply (lab_cell m nu _ w E') in H. econstructor; eauto.
Qed.

(** ** extension of a memory by bindings *)
Definition ext := only_vars_bound.

Lemma ext_refl m : ext m m. Proof. intros a; auto. Qed.
Lemma ext_trans m1 m2 m3 : ext m1 m2 -> ext m2 m3 -> ext m1 m3.
Proof.
  intros H1 H2 a. destruct (H1 a) as [E1|[U [w E1]]], (H2 a) as [E2|[U2 [w2 E2]]].
  - left. congruence.
  - right. split; [congruence|]. eauto.
  - right. split; auto. exists w. congruence.
  - right. eauto.
Qed.
Lemma ext_keep m m' a c : ext m m' -> m a = Some c -> c <> Word (REF a) -> m' a = Some c.
Proof. intros H E N. destruct (H a) as [->|[U _]]; congruence. Qed.
Lemma ext_word m m' a w : ext m m' -> m a = Some (Word w) -> exists w', m' a = Some (Word w').
Proof. intros H E. destruct (H a) as [->|[U W]]; eauto. Qed.
Lemma ext_back m m' a c : ext m m' -> m' a = Some c -> exists c', m a = Some c' /\
  (c' = c \/ (c' = Word (REF a) /\ exists w, c = Word w)).
Proof. intros H E. destruct (H a) as [E'|[U [w W]]]; [rewrite <- E', E; eauto|]. rewrite E in W.
  inversion W. eauto 6. Qed.
Lemma ext_words_at m m' a n : ext m m' -> words_at m a n -> words_at m' a n.
Proof. intros H Wd i Hi. destruct (Wd i Hi) as [w E]. eapply ext_word; eauto. Qed.
Lemma ext_wf_word L m m' w : ext m m' -> wf_word L m w -> wf_word L m' w.
Proof.
  intros H. destruct w; cbn; auto.
  - intros [w' E]. eapply ext_word; eauto.
  - intros [H1 H2]. split; auto. eapply ext_words_at; eauto.
  - intros (f & n & E & N & ND & R & Wd). exists f, n. repeat split; auto.
    + eapply ext_keep; eauto. discriminate.
    + eapply ext_words_at; eauto.
  - intros (d & E & N). exists d. split; auto. eapply ext_keep; eauto. discriminate.
  - intros [E N]. split; auto. eapply ext_keep; eauto. discriminate.
Qed.

(** the word read before and the cell after *)
Lemma ext_cell m m' nu a w : ext m m' -> m a = Some (Word w) ->
  same_tree (lab m' nu (REF a)) (lab m' nu w).
Proof.
  intros H E. destruct (H a) as [E'|[U _]].
  - apply lab_cell. congruence.
  - assert (w = REF a) by congruence. subst. apply same_tree_refl.
Qed.

(** the meaning in the extended memory is the meaning in the old one, under the
    valuation given by the new bindings *)
Definition vals (m : mem) (nu : valuation) : valuation := fun a => lab m nu (REF a).

Lemma ext_lab m m' nu : ext m m' -> forall w, same_tree (lab m' nu w) (lab m (vals m' nu) w).
Proof.
  intros H w p l. split.
  - induction 1 as [a p l E N|a w p l E N D IH|n|i|a d E|a|a|a i w p l Hi E D IH|a f n E|a f n i w p l E Hi E2 D IH].
    + destruct (ext_back _ _ _ _ H E) as (c' & E' & [->|[-> _]]); apply lab_var; auto; now apply lab_var.
    + destruct (ext_back _ _ _ _ H E) as (c' & E' & [->|[-> _]]).
      * eapply lab_ref; eauto.
      * apply lab_var; auto. eapply lab_ref; eauto.
    + constructor.
    + constructor.
    + destruct (ext_back _ _ _ _ H E) as (c' & E' & [->|[_ [w X]]]); [constructor; auto|discriminate].
    + constructor.
    + constructor.
    + destruct (ext_back _ _ _ _ H E) as (c' & E' & [->|[-> _]]).
      * econstructor; eauto.
      * econstructor; eauto. apply lab_var; auto. apply (lab_cell m' nu _ w); auto.
    + destruct (ext_back _ _ _ _ H E) as (c' & E' & [->|[_ [w X]]]); [constructor; auto|discriminate].
    + destruct (ext_back _ _ _ _ H E) as (c' & E' & [->|[_ [w' X]]]); [|discriminate].
      destruct (ext_back _ _ _ _ H E2) as (c' & E2' & [->|[-> _]]).
      * econstructor; eauto.
      * econstructor; eauto. apply lab_var; auto. apply (lab_cell m' nu _ w); auto.
  - induction 1 as [a p l E N|a w p l E N D IH|n|i|a d E|a|a|a i w p l Hi E D IH|a f n E|a f n i w p l E Hi E2 D IH].
    + exact N.
    + eapply lab_ref; eauto. eapply ext_keep; eauto. congruence.
    + constructor.
    + constructor.
    + constructor. eapply ext_keep; eauto. discriminate.
    + constructor.
    + constructor.
    + destruct (ext_word _ _ _ _ H E) as [w' E']. apply lab_lst_iff. split; auto. split; eauto.
      apply (ext_cell m m' nu _ w); auto.
    + constructor. eapply ext_keep; eauto. discriminate.
    + assert (E' : m' a = Some (Func f n)) by (eapply ext_keep; eauto; discriminate).
      destruct (ext_word _ _ _ _ H E2) as [w' E2']. apply (lab_stc_iff _ _ _ _ _ _ _ _ E').
      split; auto. split; eauto. apply (ext_cell m m' nu _ w); auto.
Qed.

Lemma ext_same m m' u v : ext m m' -> (forall nu, same m nu u v) -> forall nu, same m' nu u v.
Proof.
  intros H S nu. eapply same_tree_trans; [apply ext_lab; eauto|].
  eapply same_tree_trans; [apply S|]. apply same_tree_sym. now apply ext_lab.
Qed.

(** ** binding a variable *)
Lemma store_same m a c : store m a c a = Some c.
Proof. unfold store. now rewrite Z.eqb_refl. Qed.
Lemma store_other m a c x : x <> a -> store m a c x = m x.
Proof. intros N. unfold store. now apply Z.eqb_neq in N as ->. Qed.

Lemma store_ext m a w : m a = Some (Word (REF a)) -> ext m (store m a (Word w)).
Proof.
  intros E x. destruct (Z.eq_dec x a) as [->|N].
  - right. split; auto. exists w. apply store_same.
  - left. now apply store_other.
Qed.

(** [w] may be stored in the variable [a] *)
Definition bindable (a : addr) (w : word) : Prop := forall b, w = REF b -> b < a.

Lemma copy_lab L m nu w : wf_word L m w -> same_tree (lab m nu (Do_Copy_Of_Word w)) (lab m nu w).
Proof.
  destruct w; cbn; intros H; try exact (same_tree_refl _).
  apply lab_cell. tauto.
Qed.

(** chains of references after a binding *)
Lemma bind_derefs L m a w u u' : m a = Some (Word (REF a)) -> wf_word L m w -> bindable a w ->
  derefs m w w -> derefs m u u' ->
  exists u2, derefs (store m a (Word (Do_Copy_Of_Word w))) u u2.
Proof.
  intros E Ww Bw Dw D. set (m' := store m a (Word (Do_Copy_Of_Word w))).
  assert (Dc : exists u2, derefs m' (Do_Copy_Of_Word w) u2).
  { destruct w as [b| | | | |b|]; cbn [Do_Copy_Of_Word]; try (eexists; apply drf_other; discriminate).
    - specialize (Bw b eq_refl). exists (REF b).
      destruct (derefs_result _ _ _ Dw) as [(x & Q & Eb)|Q]; [assert (x = b) by congruence; subst x|exfalso; eapply Q; reflexivity].
      apply drf_self. unfold m'. rewrite store_other by lia. auto.
    - destruct Ww as [Eb _]. exists (FDV b). apply drf_step with (w := FDV b); [|discriminate|apply drf_other; discriminate].
      unfold m'. rewrite store_other; auto. congruence. }
  assert (Da : exists u2, derefs m' (REF a) u2).
  { destruct Dc as [u2 D2]. exists u2. eapply drf_step; eauto; [apply store_same|].
    destruct w as [b| | | | |b|]; cbn; try discriminate.
    - specialize (Bw b eq_refl). intros Q. injection Q as ->. lia.
    - intros Q. injection Q as ->. destruct Ww; congruence. }
  induction D as [x Ex|x y y' Ex Nx D IH|y Ny].
  - destruct (Z.eq_dec x a) as [->|Nx]; auto. exists (REF x). apply drf_self.
    unfold m'. now rewrite store_other.
  - destruct (Z.eq_dec x a) as [->|Nx']; auto. destruct IH as [u2 D2].
    exists u2. eapply drf_step; eauto. unfold m'. now rewrite store_other.
  - exists y. now apply drf_other.
Qed.

Lemma bind_wf L m a w : wf L m -> m a = Some (Word (REF a)) -> wf_word L m w -> bindable a w ->
  derefs m w w ->
  wf L (store m a (Word (Do_Copy_Of_Word w))).
Proof.
  intros W E Ww Bw Dw. pose proof (store_ext m a (Do_Copy_Of_Word w) E) as X.
  set (m' := store m a (Word (Do_Copy_Of_Word w))) in *. split.
  - intros x c Ex. destruct (ext_back _ _ _ _ X Ex) as (c' & E' & _). eapply wf_pos; eauto.
  - intros x w' Ex. destruct (Z.eq_dec x a) as [->|N].
    + unfold m' in Ex. rewrite store_same in Ex. inversion Ex; subst w'.
      apply (ext_wf_word L m m'); auto. destruct w; cbn in *; auto. destruct Ww; eauto.
    + unfold m' in Ex. rewrite store_other in Ex by auto.
      apply (ext_wf_word L m m'); auto. eapply wf_cell; eauto.
  - intros x b Ex. destruct (Z.eq_dec x a) as [->|N].
    + unfold m' in Ex. rewrite store_same in Ex. inversion Ex as [Ew].
      destruct w; cbn in Ew; try discriminate; inversion Ew; subst.
      * left. pose proof (Bw b eq_refl). lia.
      * right. apply Ww.
    + unfold m' in Ex. rewrite store_other in Ex by auto.
      exact (wf_ref L m W x b Ex).
  - intros x w' Ex. destruct (Z.eq_dec x a) as [->|N].
    + unfold m' in Ex. rewrite store_same in Ex. inversion Ex; subst w'.
      destruct (derefs_total L m W (Do_Copy_Of_Word w)) as [u' Du].
      { destruct w; cbn in *; auto. destruct Ww; eauto. }
      exact (bind_derefs L m a w _ _ E Ww Bw Dw Du).
    + unfold m' in Ex. rewrite store_other in Ex by auto.
      destruct (wf_drf L m W _ _ Ex) as [u' Du]. exact (bind_derefs L m a w _ _ E Ww Bw Dw Du).
Qed.

Lemma bind_same L m a w nu : m a = Some (Word (REF a)) -> wf_word L m w ->
  same (store m a (Word (Do_Copy_Of_Word w))) nu (REF a) w.
Proof.
  intros E Ww. pose proof (store_ext m a (Do_Copy_Of_Word w) E) as X.
  eapply same_tree_trans; [apply (lab_cell _ nu a); apply store_same|].
  apply (copy_lab L). eapply ext_wf_word; eauto.
Qed.

(** ** what a step does to the state *)
Definition trail_ok (c : cfg) (s s' : st) : Prop :=
  exists new, tr s' = new ++ tr s /\
    (forall a, mm s' a = mm s a \/
       (mm s a = Some (Word (REF a)) /\ (Word_Needs_Trailing c a = true -> In (TUV a) new))) /\
    (forall e, In e new -> exists a, e = TUV a /\ mm s a = Some (Word (REF a)) /\
       Word_Needs_Trailing c a = true).

Definition good (c : cfg) (s s' : st) : Prop :=
  wf (LSSA c) (mm s') /\ ext (mm s) (mm s') /\ trail_ok c s s' /\
  (forall a b, mm s' a = Some (Word (FDV b)) -> mm s a = Some (Word (FDV b))).

Lemma good_refl c s : wf (LSSA c) (mm s) -> good c s s.
Proof.
  intros W. split; [auto|]. split; [apply ext_refl|]. split; auto.
  exists []. repeat split; auto. intros e [].
Qed.

Lemma good_trans c s1 s2 s3 : good c s1 s2 -> good c s2 s3 -> good c s1 s3.
Proof.
  intros (W1 & X1 & (n1 & T1 & C1 & E1) & F1) (W2 & X2 & (n2 & T2 & C2 & E2) & F2).
  split; [auto|]. split; [eapply ext_trans; eauto|]. split; [|auto].
  exists (n2 ++ n1). rewrite T2, T1, app_assoc. split; auto. split.
  - intros a. destruct (C1 a) as [Q1|[U1 N1]].
    + destruct (C2 a) as [Q2|[U2 N2]].
      * left. congruence.
      * right. split; [congruence|]. intros H. apply in_or_app. auto.
    + right. split; auto. intros H. apply in_or_app. auto.
  - intros e I. apply in_app_or in I as [I|I]; [|auto].
    destruct (E2 e I) as (a & -> & U & N). exists a. repeat split; auto.
    destruct (X1 a) as [Q|[Q _]]; congruence.
Qed.

Lemma bind_good c s a w : wf (LSSA c) (mm s) -> mm s a = Some (Word (REF a)) ->
  wf_word (LSSA c) (mm s) w -> bindable a w -> derefs (mm s) w w ->
  good c s (Bind_UV c s a (Do_Copy_Of_Word w)).
Proof.
  intros W E Ww Bw Dw. unfold Bind_UV. split; [cbn; apply bind_wf; auto|].
  split; [cbn; apply store_ext; auto|]. split.
  2: { cbn [mm]. intros x b Ex. destruct (Z.eq_dec x a) as [->|N]; [|now rewrite store_other in Ex].
       rewrite store_same in Ex. destruct w; discriminate. }
  exists (if Word_Needs_Trailing c a then [TUV a] else []). cbn [mm tr].
  split; [destruct (Word_Needs_Trailing c a); reflexivity|]. split.
  - intros x. destruct (Z.eq_dec x a) as [->|N]; [|left; now apply store_other].
    right. split; auto. intros ->. now left.
  - intros e. destruct (Word_Needs_Trailing c a) eqn:Q; [|intros []].
    intros [<-|[]]. eauto.
Qed.

(** ** soundness *)
Definition sound_res (c : cfg) (s : st) (u v : word) (r : ures) (s' : st) : Prop :=
  good c s s' /\ (r = USucc -> forall nu, same (mm s') nu u v).

Lemma unify_args_sound c uni
  (H : forall s u v r s', wf (LSSA c) (mm s) -> wf_word (LSSA c) (mm s) u ->
       wf_word (LSSA c) (mm s) v -> uni s u v = Ret (r, s') -> sound_res c s u v r s') :
  forall n s a b r s', wf (LSSA c) (mm s) -> words_at (mm s) a n -> words_at (mm s) b n ->
  unify_args uni n s a b = Ret (r, s') ->
  good c s s' /\ (r = USucc -> forall nu i, (i < n)%nat ->
    same (mm s') nu (REF (a + Z.of_nat i)) (REF (b + Z.of_nat i))).
Proof.
  induction n as [|n IH]; intros s a b r s' W Wa Wb; cbn [unify_args]; [discriminate|].
  destruct (Wa 0%nat ltac:(lia)) as [u Eu]. destruct (Wb 0%nat ltac:(lia)) as [v Ev].
  rewrite Z.add_0_r in Eu, Ev. unfold rd_word. rewrite Eu, Ev. cbn [bind].
  assert (Wu := wf_cell _ _ W _ _ Eu). assert (Wv := wf_cell _ _ W _ _ Ev).
  assert (Z0 : forall s2 nu, ext (mm s) (mm s2) -> same (mm s2) nu u v ->
      same (mm s2) nu (REF (a + Z.of_nat 0)) (REF (b + Z.of_nat 0))).
  { intros s2 nu X Sm. cbn [Z.of_nat]. rewrite !Z.add_0_r.
    eapply same_tree_trans; [eapply ext_cell; eauto|].
    eapply same_tree_trans; [exact Sm|]. apply same_tree_sym. eapply ext_cell; eauto. }
  destruct n as [|n].
  - intros E. destruct (H _ _ _ _ _ W Wu Wv E) as [G Sm]. split; auto.
    intros R nu i Hi. assert (i = O) by lia. subst i. apply Z0; [apply G|auto].
  - destruct (uni s u v) as [[r1 s1]| |] eqn:E1; cbn [bind]; try discriminate.
    destruct (H _ _ _ _ _ W Wu Wv E1) as [G Sm].
    destruct r1; intros E; [|inversion E; subst; split; auto; discriminate..].
    assert (W1 : wf (LSSA c) (mm s1)) by apply G.
    assert (X1 : ext (mm s) (mm s1)) by apply G.
    destruct (IH s1 (a + 1) (b + 1) r s' W1) as [G2 S2]; auto.
    + intros i Hi. destruct (Wa (S i) ltac:(lia)) as [w Ew].
      replace (a + 1 + Z.of_nat i) with (a + Z.of_nat (S i)) by lia. eapply ext_word; eauto.
    + intros i Hi. destruct (Wb (S i) ltac:(lia)) as [w Ew].
      replace (b + 1 + Z.of_nat i) with (b + Z.of_nat (S i)) by lia. eapply ext_word; eauto.
    + split; [eapply good_trans; eauto|].
      intros R nu i Hi. destruct i as [|i].
      * apply (Z0 s').
        { eapply ext_trans; [exact X1|apply G2]. }
        { revert nu. apply (ext_same (mm s1)); [apply G2|auto]. }
      * specialize (S2 R nu i ltac:(lia)).
        replace (a + Z.of_nat (S i)) with (a + 1 + Z.of_nat i) by lia.
        replace (b + Z.of_nat (S i)) with (b + 1 + Z.of_nat i) by lia. exact S2.
Qed.

Lemma norm_flt_eqb d1 d2 : SFeqb d1 d2 = true -> norm_flt d1 = norm_flt d2.
Proof.
  unfold SFeqb. intros H.
  assert (N1 : not_nan d1) by (intros ->; discriminate).
  assert (N2 : not_nan d2) by (intros ->; destruct d1 as [|[]| |]; discriminate).
  apply (fltcmp_eq d1 d2 N1 N2). rewrite fltcmp_alt.
  destruct (SFcompare d1 d2) as [[]|]; try discriminate; reflexivity.
Qed.

Lemma lab_root_fun_lst m nu a b : same_tree (lab m nu (LST a)) (lab m nu (LST b)) <->
  (forall i p l, lab m nu (LST a) (i :: p) l <-> lab m nu (LST b) (i :: p) l).
Proof.
  split; [intros H i p l; apply H|]. intros H [|i p] l; [|apply H].
  split; intros X; inversion X; constructor.
Qed.

Lemma lab_stc_nil m nu a f n l : m a = Some (Func f n) ->
  (lab m nu (STC a) [] l <-> l = LFun f n).
Proof.
  intros E. split; intros H; [inversion H; congruence|subst; now constructor].
Qed.

Lemma unify_nonvar_sound c uni
  (H : forall s u v r s', wf (LSSA c) (mm s) -> wf_word (LSSA c) (mm s) u ->
       wf_word (LSSA c) (mm s) v -> uni s u v = Ret (r, s') -> sound_res c s u v r s') :
  forall s u v r s', wf (LSSA c) (mm s) -> wf_word (LSSA c) (mm s) u ->
  wf_word (LSSA c) (mm s) v -> unify_nonvar uni s u v = Ret (r, s') -> sound_res c s u v r s'.
Proof.
  intros s u v r s' W Wu Wv. unfold unify_nonvar.
  destruct (word_eqb u v) eqn:Q.
  { apply word_eqb_eq in Q. subst. intros E; inversion E; subst. split; [now apply good_refl|].
    intros _ nu. apply same_tree_refl. }
  assert (K : forall r', r' <> USucc -> Ret (r', s) = Ret (r, s') -> sound_res c s u v r s').
  { intros r' N E. inversion E; subst. split; [now apply good_refl|congruence]. }
  destruct v as [b|b|b|j|b|b|k]; destruct u as [a|a|a|i|a|a|n];
    try (apply K; discriminate).
  - (* lists *)
    intros E. destruct Wu as [_ Wu], Wv as [_ Wv].
    destruct (unify_args_sound c uni H _ _ _ _ _ _ W Wu Wv E) as [G Sm]. split; auto.
    intros R nu. specialize (Sm R nu). apply lab_root_fun_lst. intros i p l. rewrite !lab_lst_iff.
    assert (X : ext (mm s) (mm s')) by apply G.
    pose proof (ext_words_at _ _ _ _ X Wu) as Wu'. pose proof (ext_words_at _ _ _ _ X Wv) as Wv'.
    split; intros (Hi & _ & Lb); (split; [auto|]); (split; [auto|]); now apply (Sm i Hi).
  - (* structures *)
    destruct Wu as (f & n & Ea & Na & _ & _ & Wa), Wv as (g & k & Eb & Nb & _ & _ & Wb).
    unfold rd_func. rewrite Ea, Eb. cbn [bind fst snd].
    destruct (Z.eqb_spec f g) as [->|]; cbn [andb]; [|apply K; discriminate].
    destruct (Nat.eqb_spec n k) as [->|]; cbn [andb]; [|apply K; discriminate].
    intros E. destruct (unify_args_sound c uni H _ _ _ _ _ _ W Wa Wb E) as [G Sm]. split; auto.
    intros R nu. specialize (Sm R nu).
    assert (X : ext (mm s) (mm s')) by apply G.
    assert (Ea' : mm s' a = Some (Func g k)) by (eapply ext_keep; eauto; discriminate).
    assert (Eb' : mm s' b = Some (Func g k)) by (eapply ext_keep; eauto; discriminate).
    pose proof (ext_words_at _ _ _ _ X Wa) as Wa'. pose proof (ext_words_at _ _ _ _ X Wb) as Wb'.
    intros [|i p] l.
    + rewrite (lab_stc_nil _ _ _ _ _ _ Ea'), (lab_stc_nil _ _ _ _ _ _ Eb'). tauto.
    + rewrite (lab_stc_iff _ _ _ _ _ _ _ _ Ea'), (lab_stc_iff _ _ _ _ _ _ _ _ Eb').
      split; intros (Hi & _ & Lb); (split; [auto|]); (split; [auto|]); now apply (Sm i Hi).
  - (* floats *)
    destruct Wu as (d1 & E1 & N1), Wv as (d2 & E2 & N2). unfold rd_dbl. rewrite E1, E2. cbn [bind].
    intros E. inversion E; subst. split; [now apply good_refl|]. intros R nu.
    destruct (SFeqb d1 d2) eqn:Q2; [|discriminate]. apply norm_flt_eqb in Q2.
    intros p l. split; intros X; inversion X; subst.
    + replace (norm_flt d) with (norm_flt d2) by congruence. now constructor.
    + replace (norm_flt d) with (norm_flt d1) by congruence. now constructor.
Qed.

Lemma nonref_bindable a w : (forall b, w <> REF b) -> bindable a w.
Proof. intros H b E. exfalso. eapply H; eauto. Qed.

Lemma Unify_sound oc c fuel : forall s u v r s', wf (LSSA c) (mm s) ->
  wf_word (LSSA c) (mm s) u -> wf_word (LSSA c) (mm s) v ->
  Unify oc fuel c s u v = Ret (r, s') -> sound_res c s u v r s'.
Proof.
  induction fuel as [|fuel IH]; intros s u v r s' W Wu Wv; [discriminate|]. cbn [Unify].
  destruct (deref_ok (LSSA c) (mm s) u fuel W Wu) as [->|(u' & -> & Du & Wu' & Ru)]; [discriminate|].
  cbn [bind].
  destruct (deref_ok (LSSA c) (mm s) v fuel W Wv) as [->|(v' & -> & Dv & Wv' & Rv)]; [discriminate|].
  cbn [bind].
  (* it is enough to treat the dereferenced words *)
  assert (Red : sound_res c s u' v' r s' -> sound_res c s u v r s').
  { intros [G Sm]. split; auto. intros R nu.
    assert (X : ext (mm s) (mm s')) by apply G.
    eapply same_tree_trans.
    { apply (ext_same (mm s) (mm s') u u' X). intros nu'. now apply lab_derefs. }
    eapply same_tree_trans; [apply (Sm R nu)|]. apply same_tree_sym.
    apply (ext_same (mm s) (mm s') v v' X). intros nu'. now apply lab_derefs. }
  intros E. apply Red. clear Red Wu Wv Du Dv u v.
  assert (BV : forall a w, mm s a = Some (Word (REF a)) -> wf_word (LSSA c) (mm s) w ->
    (forall b, w <> REF b) -> unify_var oc fuel c s a w = Ret (r, s') ->
    good c s s' /\ (r = USucc -> forall nu, same (mm s') nu (REF a) w)).
  { intros a w Ea Ww Nw. unfold unify_var.
    destruct (if oc && negb (Is_A_Local_Adr c a) then _ else _) as [o| |]; cbn [bind]; try discriminate.
    destruct o; intros X; inversion X; subst.
    - split; [now apply good_refl|discriminate].
    - split; [apply bind_good; auto; [now apply nonref_bindable|now apply drf_other]|]. intros _ nu.
      cbn [Bind_UV mm]. eapply bind_same; eauto. }
  destruct Ru as [(a & -> & Ea)|Nu].
  - destruct Rv as [(b & -> & Eb)|Nv].
    + destruct (Z.ltb_spec b a); [|destruct (Z.ltb_spec a b)].
      * inversion E; subst. change (REF b) with (Do_Copy_Of_Word (REF b)).
        split; [apply (bind_good c s a (REF b)); auto; [intros x Ex; inversion Ex; lia|now apply drf_self]|].
        intros _ nu. cbn [Bind_UV mm]. apply (bind_same (LSSA c) (mm s) a (REF b)); auto.
      * inversion E; subst. change (REF a) with (Do_Copy_Of_Word (REF a)) at 1.
        split; [apply (bind_good c s b (REF a)); auto; [intros x Ex; inversion Ex; lia|now apply drf_self]|].
        intros _ nu. apply same_tree_sym. cbn [Bind_UV mm].
        apply (bind_same (LSSA c) (mm s) b (REF a)); auto.
      * assert (a = b) by lia. subst. inversion E; subst. split; [now apply good_refl|].
        intros _ nu. apply same_tree_refl.
    + apply BV; auto. destruct v'; auto. exfalso; eapply Nv; eauto.
  - destruct Rv as [(b & -> & Eb)|Nv].
    + destruct (BV b u' Eb Wu' Nu) as [G Sm].
      { destruct u'; auto. exfalso; eapply Nu; eauto. }
      split; auto. intros R nu. apply same_tree_sym. now apply Sm.
    + eapply unify_nonvar_sound; eauto.
      destruct u'; try (destruct v'; auto; exfalso; eapply Nv; eauto; fail).
      exfalso; eapply Nu; eauto.
Qed.
