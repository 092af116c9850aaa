Require Import ZArith List Bool Lia PeanoNat Floats.SpecFloat.
Require Import Verif.Term_Model Verif.Term_Proofs Verif.Heap_Model Verif.Heap_Proofs.
Require Import Verif.Unify_Model Verif.Unify_Spec Verif.Unify_Proofs.
Import ListNotations.
Open Scope Z_scope.

(** ** no undefined behaviour *)
Lemma occurs_args_no_UB L m occ (W : wf L m)
  (H : forall w, wf_word L m w -> occ w <> UB) :
  forall n a, (1 <= n)%nat -> words_at m a n -> occurs_args occ n m a <> UB.
Proof.
  induction n as [|n IH]; intros a Hn Wd; [lia|]. cbn [occurs_args].
  destruct (Wd 0%nat ltac:(lia)) as [w E]. rewrite Z.add_0_r in E. unfold rd_word. rewrite E.
  cbn [bind]. assert (Ww := wf_cell _ _ W _ _ E).
  destruct n as [|n]; [auto|]. specialize (H w Ww).
  destruct (occ w) as [[]| |]; cbn [bind]; try congruence.
  apply IH; [lia|]. intros i Hi. destruct (Wd (S i) ltac:(lia)) as [w' E'].
  exists w'. rewrite <- E'. f_equal. lia.
Qed.

Lemma Check_no_UB L m fuel (W : wf L m) : forall a w, wf_word L m w ->
  Check_If_Var_Occurs fuel m a w <> UB.
Proof.
  induction fuel as [|fuel IH]; intros a w Ww; [discriminate|]. cbn [Check_If_Var_Occurs].
  destruct (deref_ok L m w fuel W Ww) as [->|(w' & -> & D & Ww' & R)]; [discriminate|]. cbn [bind].
  destruct w'; try discriminate.
  - apply (occurs_args_no_UB L); auto. apply Ww'.
  - destruct Ww' as (f & n & E & N & _ & _ & Wd). unfold rd_func. rewrite E. cbn [bind snd].
    apply (occurs_args_no_UB L); auto.
Qed.

Lemma unify_args_no_UB c uni
  (H : forall s u v, wf (LSSA c) (mm s) -> wf_word (LSSA c) (mm s) u ->
       wf_word (LSSA c) (mm s) v -> uni s u v <> UB)
  (H' : forall s u v r s', wf (LSSA c) (mm s) -> wf_word (LSSA c) (mm s) u ->
       wf_word (LSSA c) (mm s) v -> uni s u v = Ret (r, s') -> sound_res c s u v r s') :
  forall n s a b, (1 <= n)%nat -> wf (LSSA c) (mm s) -> words_at (mm s) a n -> words_at (mm s) b n ->
  unify_args uni n s a b <> UB.
Proof.
  induction n as [|n IH]; intros s a b Hn W Wa Wb; [lia|]. cbn [unify_args].
  destruct (Wa 0%nat ltac:(lia)) as [u Eu]. destruct (Wb 0%nat ltac:(lia)) as [v Ev].
  rewrite Z.add_0_r in Eu, Ev. unfold rd_word. rewrite Eu, Ev. cbn [bind].
  assert (Wu := wf_cell _ _ W _ _ Eu). assert (Wv := wf_cell _ _ W _ _ Ev).
  specialize (H s u v W Wu Wv).
  destruct n as [|n]; [auto|].
  destruct (uni s u v) as [[r1 s1]| |] eqn:E1; cbn [bind]; try congruence.
  destruct (H' _ _ _ _ _ W Wu Wv E1) as [G _].
  destruct r1; try discriminate. apply IH; [lia|apply G| |].
  - intros i Hi. destruct (Wa (S i) ltac:(lia)) as [w Ew].
    replace (a + 1 + Z.of_nat i) with (a + Z.of_nat (S i)) by lia. eapply ext_word; [apply G|eauto].
  - intros i Hi. destruct (Wb (S i) ltac:(lia)) as [w Ew].
    replace (b + 1 + Z.of_nat i) with (b + Z.of_nat (S i)) by lia. eapply ext_word; [apply G|eauto].
Qed.

Lemma Unify_no_UB oc c fuel : forall s u v, wf (LSSA c) (mm s) ->
  wf_word (LSSA c) (mm s) u -> wf_word (LSSA c) (mm s) v -> Unify oc fuel c s u v <> UB.
Proof.
  induction fuel as [|fuel IH]; intros s u v W Wu Wv; [discriminate|]. cbn [Unify].
  destruct (deref_ok (LSSA c) (mm s) u fuel W Wu) as [->|(u' & -> & Du & Wu' & Ru)]; [discriminate|].
  cbn [bind].
  destruct (deref_ok (LSSA c) (mm s) v fuel W Wv) as [->|(v' & -> & Dv & Wv' & Rv)]; [discriminate|].
  cbn [bind].
  assert (BV : forall a w, wf_word (LSSA c) (mm s) w -> unify_var oc fuel c s a w <> UB).
  { intros a w Ww. unfold unify_var.
    destruct (oc && negb (Is_A_Local_Adr c a)); cbn [bind]; [|discriminate].
    pose proof (Check_no_UB (LSSA c) (mm s) fuel W a w Ww).
    destruct (Check_If_Var_Occurs fuel (mm s) a w) as [[]| |]; cbn [bind]; congruence. }
  assert (NV : unify_nonvar (Unify oc fuel c) s u' v' <> UB).
  { unfold unify_nonvar. destruct (word_eqb u' v'); [discriminate|].
    destruct v' as [b|b|b|j|b|b|k]; destruct u' as [a|a|a|i|a|a|n]; try discriminate.
    - apply (unify_args_no_UB c); auto; [intros; eapply Unify_sound; eauto|apply Wu'|apply Wv'].
    - destruct Wu' as (f & n & Ea & Na & _ & _ & Wa), Wv' as (g & k & Eb & Nb & _ & _ & Wb).
      unfold rd_func. rewrite Ea, Eb. cbn [bind fst snd].
      destruct (Z.eqb_spec f g) as [->|]; cbn [andb]; [|discriminate].
      destruct (Nat.eqb_spec n k) as [->|]; cbn [andb]; [|discriminate].
      apply (unify_args_no_UB c); auto; intros; eapply Unify_sound; eauto.
    - destruct Wu' as (d1 & E1 & N1), Wv' as (d2 & E2 & N2). unfold rd_dbl. rewrite E1, E2.
      discriminate. }
  destruct u'; try (destruct v'; auto; fail).
  destruct v'; auto. destruct (_ <? _); [discriminate|]. destruct (_ <? _); discriminate.
Qed.

(** ** no call of the FD solver without FD variables *)
Lemma no_fd_word L m w : no_fd m -> wf_word L m w -> forall a, w <> FDV a.
Proof. intros N W a ->. destruct W as [E _]. eapply N; eauto. Qed.

Lemma good_no_fd c s s' : good c s s' -> no_fd (mm s) -> no_fd (mm s').
Proof. intros (_ & _ & _ & F) N a b E. eapply N; eauto. Qed.

Lemma unify_args_no_fd c uni
  (H : forall s u v s', no_fd (mm s) -> wf (LSSA c) (mm s) -> wf_word (LSSA c) (mm s) u ->
       wf_word (LSSA c) (mm s) v -> uni s u v <> Ret (UFd, s'))
  (H' : forall s u v r s', wf (LSSA c) (mm s) -> wf_word (LSSA c) (mm s) u ->
       wf_word (LSSA c) (mm s) v -> uni s u v = Ret (r, s') -> sound_res c s u v r s') :
  forall n s a b s', no_fd (mm s) -> wf (LSSA c) (mm s) -> words_at (mm s) a n -> words_at (mm s) b n ->
  unify_args uni n s a b <> Ret (UFd, s').
Proof.
  induction n as [|n IH]; intros s a b s' NF W Wa Wb; cbn [unify_args]; [discriminate|].
  destruct (Wa 0%nat ltac:(lia)) as [u Eu]. destruct (Wb 0%nat ltac:(lia)) as [v Ev].
  rewrite Z.add_0_r in Eu, Ev. unfold rd_word. rewrite Eu, Ev. cbn [bind].
  assert (Wu := wf_cell _ _ W _ _ Eu). assert (Wv := wf_cell _ _ W _ _ Ev).
  destruct n as [|n]; [auto|].
  destruct (uni s u v) as [[r1 s1]| |] eqn:E1; cbn [bind]; try congruence.
  destruct (H' _ _ _ _ _ W Wu Wv E1) as [G _].
  destruct r1; try discriminate. 2: { specialize (H s u v s1 NF W Wu Wv). congruence. }
  apply IH; [eapply good_no_fd; eauto|apply G| |].
  - intros i Hi. destruct (Wa (S i) ltac:(lia)) as [w Ew].
    replace (a + 1 + Z.of_nat i) with (a + Z.of_nat (S i)) by lia. eapply ext_word; [apply G|eauto].
  - intros i Hi. destruct (Wb (S i) ltac:(lia)) as [w Ew].
    replace (b + 1 + Z.of_nat i) with (b + Z.of_nat (S i)) by lia. eapply ext_word; [apply G|eauto].
Qed.

Lemma Unify_no_fd oc c fuel : forall s u v s', no_fd (mm s) -> wf (LSSA c) (mm s) ->
  wf_word (LSSA c) (mm s) u -> wf_word (LSSA c) (mm s) v -> Unify oc fuel c s u v <> Ret (UFd, s').
Proof.
  induction fuel as [|fuel IH]; intros s u v s' NF W Wu Wv; [discriminate|]. cbn [Unify].
  destruct (deref_ok (LSSA c) (mm s) u fuel W Wu) as [->|(u' & -> & Du & Wu' & Ru)]; [discriminate|].
  cbn [bind].
  destruct (deref_ok (LSSA c) (mm s) v fuel W Wv) as [->|(v' & -> & Dv & Wv' & Rv)]; [discriminate|].
  cbn [bind].
  assert (BV : forall a w, unify_var oc fuel c s a w <> Ret (UFd, s')).
  { intros a w. unfold unify_var.
    destruct (if oc && negb (Is_A_Local_Adr c a) then _ else _) as [[]| |]; cbn [bind]; discriminate. }
  assert (NV : unify_nonvar (Unify oc fuel c) s u' v' <> Ret (UFd, s')).
  { unfold unify_nonvar. destruct (word_eqb u' v'); [discriminate|].
    pose proof (no_fd_word _ _ _ NF Wu'). pose proof (no_fd_word _ _ _ NF Wv').
    destruct v' as [b|b|b|j|b|b|k]; destruct u' as [a|a|a|i|a|a|n]; try discriminate; try congruence.
    - apply (unify_args_no_fd c); auto; [intros; eapply Unify_sound; eauto|apply Wu'|apply Wv'].
    - destruct Wu' as (f & n & Ea & Na & _ & _ & Wa), Wv' as (g & k & Eb & Nb & _ & _ & Wb).
      unfold rd_func. rewrite Ea, Eb. cbn [bind fst snd].
      destruct (Z.eqb_spec f g) as [->|]; cbn [andb]; [|discriminate].
      destruct (Nat.eqb_spec n k) as [->|]; cbn [andb]; [|discriminate].
      apply (unify_args_no_fd c); auto; intros; eapply Unify_sound; eauto.
    - destruct Wu' as (d1 & E1 & N1), Wv' as (d2 & E2 & N2). unfold rd_dbl. rewrite E1, E2.
      cbn [bind]. destruct (SFeqb d1 d2); discriminate. }
  destruct u'; try (destruct v'; auto; fail).
  destruct v'; auto. destruct (_ <? _); [discriminate|]. destruct (_ <? _); discriminate.
Qed.

(** ** fuel monotonicity *)
Definition le_out {A} (o o' : outcome A) : Prop := o = NoFuel \/ o = o'.

Lemma bind_le {A B} (o o' : outcome A) (f f' : A -> outcome B) :
  le_out o o' -> (forall x, le_out (f x) (f' x)) -> le_out (bind o f) (bind o' f').
Proof.
  intros [->| ->] H; [now left|]. destruct o'; cbn; auto; right; auto.
Qed.
Lemma le_refl {A} (o : outcome A) : le_out o o. Proof. now right. Qed.

Lemma deref_le f f' m w : (f <= f')%nat -> le_out (deref f m w) (deref f' m w).
Proof.
  intros L. destruct (deref f m w) as [x| |] eqn:E; [| |now left]; right; symmetry;
    eapply deref_mono; eauto; discriminate.
Qed.

Lemma occurs_args_le occ occ' (H : forall w, le_out (occ w) (occ' w)) :
  forall n m a, le_out (occurs_args occ n m a) (occurs_args occ' n m a).
Proof.
  induction n as [|n IH]; intros m a; cbn [occurs_args]; [apply le_refl|].
  apply bind_le; [apply le_refl|]. intros w. destruct n; [auto|].
  apply bind_le; auto. intros []; [apply le_refl|auto].
Qed.

Lemma Check_le f : forall f' m a w, (f <= f')%nat ->
  le_out (Check_If_Var_Occurs f m a w) (Check_If_Var_Occurs f' m a w).
Proof.
  induction f as [|f IH]; intros f' m a w L; [now left|]. destruct f' as [|f']; [lia|].
  cbn [Check_If_Var_Occurs]. apply bind_le; [apply deref_le; lia|]. intros w'.
  destruct w'; try apply le_refl.
  - apply occurs_args_le. intros. apply IH. lia.
  - apply bind_le; [apply le_refl|]. intros. apply occurs_args_le. intros. apply IH. lia.
Qed.

Lemma unify_args_le uni uni' (H : forall s u v, le_out (uni s u v) (uni' s u v)) :
  forall n s a b, le_out (unify_args uni n s a b) (unify_args uni' n s a b).
Proof.
  induction n as [|n IH]; intros s a b; cbn [unify_args]; [apply le_refl|].
  apply bind_le; [apply le_refl|]. intros u. apply bind_le; [apply le_refl|]. intros v.
  destruct n; [auto|]. apply bind_le; auto. intros [[] s']; try apply le_refl. apply IH.
Qed.

Lemma Unify_le oc c f : forall f' s u v, (f <= f')%nat ->
  le_out (Unify oc f c s u v) (Unify oc f' c s u v).
Proof.
  induction f as [|f IH]; intros f' s u v L; [now left|]. destruct f' as [|f']; [lia|].
  cbn [Unify]. apply bind_le; [apply deref_le; lia|]. intros u'.
  apply bind_le; [apply deref_le; lia|]. intros v'.
  assert (BV : forall a w, le_out (unify_var oc f c s a w) (unify_var oc f' c s a w)).
  { intros a w. unfold unify_var. apply bind_le; [|intros; apply le_refl].
    destruct (oc && negb (Is_A_Local_Adr c a)); [apply Check_le; lia|apply le_refl]. }
  assert (UA : forall n a b, le_out (unify_args (Unify oc f c) n s a b) (unify_args (Unify oc f' c) n s a b)).
  { intros. apply unify_args_le. intros. apply IH. lia. }
  assert (NV : le_out (unify_nonvar (Unify oc f c) s u' v') (unify_nonvar (Unify oc f' c) s u' v')).
  { unfold unify_nonvar. destruct (word_eqb u' v'); [apply le_refl|].
    destruct v'; try apply le_refl; destruct u'; try apply le_refl; auto.
    apply bind_le; [apply le_refl|]. intros fu. apply bind_le; [apply le_refl|]. intros fv.
    destruct (_ && _); [auto|apply le_refl]. }
  destruct u'; try (destruct v'; auto; fail). destruct v'; auto. apply le_refl.
Qed.

Lemma Unify_mono oc c f f' s u v x : (f <= f')%nat -> Unify oc f c s u v = Ret x ->
  Unify oc f' c s u v = Ret x.
Proof. intros L E. destruct (Unify_le oc c f f' s u v L) as [H|H]; congruence. Qed.

(** ** completeness: a solution is kept *)
Definition keeps (nu : valuation) (m m' : mem) : Prop :=
  forall x, same_tree (lab m nu x) (lab m' nu x).

Lemma keeps_refl nu m : keeps nu m m. Proof. intros x. apply same_tree_refl. Qed.
Lemma keeps_trans nu m1 m2 m3 : keeps nu m1 m2 -> keeps nu m2 m3 -> keeps nu m1 m3.
Proof. intros H1 H2 x. eapply same_tree_trans; eauto. Qed.
Lemma keeps_same nu m m' u v : keeps nu m m' -> same m nu u v -> same m' nu u v.
Proof.
  intros K S. eapply same_tree_trans; [apply same_tree_sym, K|].
  eapply same_tree_trans; [apply S|apply K].
Qed.

Lemma bind_keeps L m nu a w : wf L m -> m a = Some (Word (REF a)) -> wf_word L m w ->
  w <> REF a -> (forall b, w = REF b -> m b = Some (Word (REF b))) ->
  same m nu (REF a) w -> keeps nu m (store m a (Word (Do_Copy_Of_Word w))).
Proof.
  intros W Ea Ww Nw Rw Sm. set (w' := Do_Copy_Of_Word w). set (m' := store m a (Word w')).
  assert (X : ext m m') by (apply store_ext; auto).
  assert (Nw' : w' <> REF a).
  { unfold w'. destruct w; cbn; auto; try discriminate. intros Q; inversion Q; subst.
    destruct Ww as [E _]. congruence. }
  assert (Sm' : same_tree (lab m nu (REF a)) (lab m nu w')).
  { eapply same_tree_trans; [apply Sm|]. apply same_tree_sym. eapply copy_lab; eauto. }
  assert (Ma : m' a = Some (Word w')) by apply store_same.
  assert (Bk : forall x p l, lab m' nu x p l -> lab m nu x p l).
  { induction 1 as [b p l E N|b y p l E N D IH|n|i|b d E|b|b|b i y p l Hi E D IH|b f n E|b f n i y p l E Hi E2 D IH].
    - destruct (Z.eq_dec b a) as [->|Nb]; [congruence|].
      unfold m' in E. rewrite store_other in E by auto. now apply lab_var.
    - destruct (Z.eq_dec b a) as [->|Nb].
      + assert (y = w') by congruence. subst y. now apply Sm'.
      + unfold m' in E. rewrite store_other in E by auto. eapply lab_ref; eauto.
    - constructor.
    - constructor.
    - destruct (ext_back _ _ _ _ X E) as (c' & E' & [->|[_ [z Q]]]); [now constructor|discriminate].
    - constructor.
    - constructor.
    - apply lab_lst_iff. destruct (ext_back _ _ _ _ X E) as (c' & E' & Q).
      split; auto. destruct (Z.eq_dec (b + Z.of_nat i) a) as [Eq|Nb].
      + rewrite Eq in *. split; eauto. assert (y = w') by congruence. subst y. now apply Sm'.
      + unfold m' in E. rewrite store_other in E by auto. split; eauto.
        apply (lab_cell m nu _ y); auto.
    - destruct (ext_back _ _ _ _ X E) as (c' & E' & [->|[_ [z Q]]]); [now constructor|discriminate].
    - destruct (ext_back _ _ _ _ X E) as (c' & E' & [->|[_ [z Q]]]); [|discriminate].
      apply (lab_stc_iff _ _ _ _ _ _ _ _ E'). split; auto.
      destruct (Z.eq_dec (b + 1 + Z.of_nat i) a) as [Eq|Nb].
      + rewrite Eq in *. split; eauto. assert (y = w') by congruence. subst y. now apply Sm'.
      + unfold m' in E2. rewrite store_other in E2 by auto. split; eauto.
        apply (lab_cell m nu _ y); auto. }
  assert (Fw : forall N p, (length p <= N)%nat -> forall x l, lab m nu x p l -> lab m' nu x p l).
  { induction N as [|N IHN].
    - intros p Hp x l H. destruct p; [|cbn in Hp; lia].
      remember [] as p eqn:Ep.
      induction H as [b p l E N|b y p l E N D IH|n|i|b d E|b|b|b i y p l Hi E D IH|b f n E|b f n i y p l E Hi E2 D IH];
        try discriminate; subst; try (constructor; fail).
      + destruct (Z.eq_dec b a) as [->|Nb].
        2: { apply lab_var; auto. unfold m'. rewrite store_other; auto. }
        apply (lab_cell m' nu a w' Ma).
        assert (Q : lab m nu w' [] l) by (apply Sm'; now apply lab_var).
        clear Sm' Sm. unfold w' in *. destruct w as [c|c|c|j|c|c|k]; cbn [Do_Copy_Of_Word] in *.
        * specialize (Rw c eq_refl). apply lab_unbound in Q; auto. apply lab_var; auto.
          unfold m'. rewrite store_other; auto. congruence.
        * inversion Q; constructor.
        * inversion Q; subst. constructor. eapply ext_keep; eauto; discriminate.
        * inversion Q; constructor.
        * inversion Q; subst. constructor. eapply ext_keep; eauto; discriminate.
        * destruct Ww as [Ec _]. apply (lab_cell m nu c _ Ec) in Q. inversion Q; subst.
          eapply lab_ref; [eapply ext_keep; eauto; discriminate|discriminate|constructor].
        * inversion Q; constructor.
      + eapply lab_ref; eauto. eapply ext_keep; eauto. congruence.
      + constructor. eapply ext_keep; eauto; discriminate.
      + constructor. eapply ext_keep; eauto; discriminate.
    - intros p Hp x l H.
      induction H as [b p l E N1|b y p l E N1 D IH|n|i|b d E|b|b|b i y p l Hi E D IH|b f n E|b f n i y p l E Hi E2 D IH];
        try (constructor; fail).
      + destruct (Z.eq_dec b a) as [->|Nb].
        2: { apply lab_var; auto. unfold m'. rewrite store_other; auto. }
        apply (lab_cell m' nu a w' Ma).
        assert (Q : lab m nu w' p l) by (apply Sm'; now apply lab_var).
        clear Sm' Sm. unfold w' in *. destruct w as [c|c|c|j|c|c|k]; cbn [Do_Copy_Of_Word] in *.
        * specialize (Rw c eq_refl). apply lab_unbound in Q; auto. apply lab_var; auto.
          unfold m'. rewrite store_other; auto. congruence.
        * inversion Q; subst; [constructor|].
          apply lab_lst_iff. split; auto. split; [eapply ext_word; eauto|].
          cbn in Hp. apply IHN; [lia|]. apply (lab_cell m nu _ w); auto.
        * inversion Q; subst; [constructor; eapply ext_keep; eauto; discriminate|].
          eapply lab_stc_iff; [eapply ext_keep; eauto; discriminate|]. split; auto.
          split; [eapply ext_word; eauto|].
          cbn in Hp. apply IHN; [lia|]. apply (lab_cell m nu _ w); auto.
        * inversion Q; constructor.
        * inversion Q; subst. constructor. eapply ext_keep; eauto; discriminate.
        * destruct Ww as [Ec _]. apply (lab_cell m nu c _ Ec) in Q. inversion Q; subst.
          eapply lab_ref; [eapply ext_keep; eauto; discriminate|discriminate|constructor].
        * inversion Q; constructor.
      + eapply lab_ref; eauto. eapply ext_keep; eauto. congruence.
      + constructor. eapply ext_keep; eauto; discriminate.
      + cbn in Hp. apply lab_lst_iff. split; auto. split; [eapply ext_word; eauto|].
        apply IHN; [lia|]. apply (lab_cell m nu _ y); auto.
      + constructor. eapply ext_keep; eauto; discriminate.
      + cbn in Hp. eapply lab_stc_iff; [eapply ext_keep; eauto; discriminate|]. split; auto.
        split; [eapply ext_word; eauto|].
        apply IHN; [lia|]. apply (lab_cell m nu _ y); auto. }
  intros x p l. split; [apply (Fw (length p)); auto|apply Bk].
Qed.

(** the occurs check answers yes only if the variable is inside *)
Lemma occurs_args_true L m nu a0 occ (W : wf L m)
  (H : forall w, wf_word L m w -> occ w = Ret true ->
       exists q, forall p l, lab m nu (REF a0) p l -> lab m nu w (q ++ p) l) :
  forall n a, words_at m a n -> occurs_args occ n m a = Ret true ->
  exists i q, (i < n)%nat /\ forall p l, lab m nu (REF a0) p l ->
    lab m nu (REF (a + Z.of_nat i)) (q ++ p) l.
Proof.
  induction n as [|n IH]; intros a Wd; cbn [occurs_args]; [discriminate|].
  destruct (Wd 0%nat ltac:(lia)) as [w E]. rewrite Z.add_0_r in E. unfold rd_word. rewrite E.
  cbn [bind]. assert (Ww := wf_cell _ _ W _ _ E).
  assert (Z0 : occ w = Ret true -> exists i q, (i < S n)%nat /\ forall p l, lab m nu (REF a0) p l ->
    lab m nu (REF (a + Z.of_nat i)) (q ++ p) l).
  { intros HO. destruct (H w Ww HO) as [q Hq]. exists 0%nat, q. split; [lia|]. intros p l Q.
    cbn [Z.of_nat]. rewrite Z.add_0_r. apply (lab_cell m nu a w E). auto. }
  destruct n as [|n]; [auto|].
  destruct (occ w) as [[]| |]; cbn [bind]; try discriminate; auto.
  intros HO. destruct (IH (a + 1)) as (i & q & Hi & Hq); auto.
  - intros i Hi. destruct (Wd (S i) ltac:(lia)) as [w' E']. exists w'. rewrite <- E'. f_equal. lia.
  - exists (S i), q. split; [lia|]. intros p l Q. replace (a + Z.of_nat (S i)) with (a + 1 + Z.of_nat i) by lia.
    auto.
Qed.

Lemma Check_true L m nu fuel (W : wf L m) : forall a w, wf_word L m w ->
  Check_If_Var_Occurs fuel m a w = Ret true ->
  exists q, (forall p l, lab m nu (REF a) p l -> lab m nu w (q ++ p) l) /\
    ((forall b, w <> REF b) -> q <> []).
Proof.
  induction fuel as [|fuel IH]; intros a w Ww; [discriminate|]. cbn [Check_If_Var_Occurs].
  destruct (deref_ok L m w fuel W Ww) as [->|(w' & -> & D & Ww' & R)]; [discriminate|]. cbn [bind].
  assert (LD := lab_derefs m nu w w' D).
  assert (IH' : forall w, wf_word L m w -> Check_If_Var_Occurs fuel m a w = Ret true ->
    exists q, forall p l, lab m nu (REF a) p l -> lab m nu w (q ++ p) l).
  { intros w0 Ww0 H0. destruct (IH a w0 Ww0 H0) as (q & Hq & _). eauto. }
  destruct w' as [b|b|b| | | |]; try discriminate.
  - intros E. inversion E as [Q]. apply Z.eqb_eq in Q. subst b. exists []. split.
    + intros p l H. now apply LD.
    + intros N. inversion D; subst; exfalso; eapply N; eauto.
  - intros E. destruct (occurs_args_true L m nu a _ W IH' 2 b (proj2 Ww') E) as (i & q & Hi & Hq).
    exists (i :: q). split; [|discriminate]. intros p l H. apply LD. apply lab_lst_iff.
    split; auto. split; [apply (proj2 Ww'); auto|auto].
  - destruct Ww' as (f & n & Eb & Nb & _ & _ & Wd). unfold rd_func. rewrite Eb. cbn [bind snd].
    intros E. destruct (occurs_args_true L m nu a _ W IH' n (b + 1) Wd E) as (i & q & Hi & Hq).
    exists (i :: q). split; [|discriminate]. intros p l H. apply LD. eapply lab_stc_iff; eauto.
Qed.

(** a finite tree is not a strict subtree of itself *)
Lemma no_strict_self (t : tree) q : finite_tree t -> q <> [] ->
  ~ (forall p l, t p l -> t (q ++ p) l).
Proof.
  intros [[l R] [N B]] Nq H.
  assert (G : forall k, exists p, (k <= length p)%nat /\ t p l).
  { induction k as [|k [p [Lp Hp]]]; [exists []; split; [lia|auto]|].
    exists (q ++ p). split; [|auto]. rewrite app_length. destruct q; [congruence|cbn; lia]. }
  destruct (G (S N)) as (p & Lp & Hp). apply B in Hp. lia.
Qed.

Definition complete_res (nu : valuation) (s : st) (r : ures) (s' : st) : Prop :=
  r <> UFail /\ (r = USucc -> keeps nu (mm s) (mm s')).

Lemma unify_args_complete c nu uni
  (H : forall s u v r s', wf (LSSA c) (mm s) -> wf_word (LSSA c) (mm s) u ->
       wf_word (LSSA c) (mm s) v -> same (mm s) nu u v -> uni s u v = Ret (r, s') ->
       complete_res nu s r s')
  (H' : forall s u v r s', wf (LSSA c) (mm s) -> wf_word (LSSA c) (mm s) u ->
       wf_word (LSSA c) (mm s) v -> uni s u v = Ret (r, s') -> sound_res c s u v r s') :
  forall n s a b r s', wf (LSSA c) (mm s) -> words_at (mm s) a n -> words_at (mm s) b n ->
  (forall i, (i < n)%nat -> same (mm s) nu (REF (a + Z.of_nat i)) (REF (b + Z.of_nat i))) ->
  unify_args uni n s a b = Ret (r, s') -> complete_res nu s r s'.
Proof.
  induction n as [|n IH]; intros s a b r s' W Wa Wb Sm; cbn [unify_args]; [discriminate|].
  destruct (Wa 0%nat ltac:(lia)) as [u Eu]. destruct (Wb 0%nat ltac:(lia)) as [v Ev].
  rewrite Z.add_0_r in Eu, Ev. unfold rd_word. rewrite Eu, Ev. cbn [bind].
  assert (Wu := wf_cell _ _ W _ _ Eu). assert (Wv := wf_cell _ _ W _ _ Ev).
  assert (S0 : same (mm s) nu u v).
  { specialize (Sm 0%nat ltac:(lia)). cbn [Z.of_nat] in Sm. rewrite !Z.add_0_r in Sm.
    eapply same_tree_trans; [apply same_tree_sym; eapply lab_cell; eauto|].
    eapply same_tree_trans; [apply Sm|eapply lab_cell; eauto]. }
  destruct n as [|n]; [intros E; apply (H _ _ _ _ _ W Wu Wv S0 E)|].
  destruct (uni s u v) as [[r1 s1]| |] eqn:E1; cbn [bind]; try discriminate.
  destruct (H' _ _ _ _ _ W Wu Wv E1) as [G _].
  destruct (H _ _ _ _ _ W Wu Wv S0 E1) as [NF K].
  destruct r1; intros EE; [|congruence|inversion EE; subst; split; discriminate].
  specialize (K eq_refl).
  destruct (IH s1 (a + 1) (b + 1) r s') as [NF2 K2]; auto.
  - apply G.
  - intros i Hi. destruct (Wa (S i) ltac:(lia)) as [w Ew].
    replace (a + 1 + Z.of_nat i) with (a + Z.of_nat (S i)) by lia. eapply ext_word; [apply G|eauto].
  - intros i Hi. destruct (Wb (S i) ltac:(lia)) as [w Ew].
    replace (b + 1 + Z.of_nat i) with (b + Z.of_nat (S i)) by lia. eapply ext_word; [apply G|eauto].
  - intros i Hi. specialize (Sm (S i) ltac:(lia)).
    replace (a + 1 + Z.of_nat i) with (a + Z.of_nat (S i)) by lia.
    replace (b + 1 + Z.of_nat i) with (b + Z.of_nat (S i)) by lia. eapply keeps_same; eauto.
  - split; auto. intros R. eapply keeps_trans; eauto.
Qed.

(** roots of well-formed non variables *)
Definition root_of (m : mem) (w : word) : option label :=
  match w with
  | LST _ => Some (LFun ATOM_DOT 2)
  | STC a => match m a with Some (Func f n) => Some (LFun f n) | _ => None end
  | ATM i => Some (LAtm i)
  | INT n => Some (LInt n)
  | FLT a => match m a with Some (Dbl d) => Some (LFlt (norm_flt d)) | _ => None end
  | FDV a => Some (LFdv a)
  | REF _ => None
  end.
Lemma root_lab m nu w l : (forall a, w <> REF a) -> (lab m nu w [] l <-> root_of m w = Some l).
Proof.
  intros N. destruct w as [a|a|a|i|a|a|n]; [exfalso; eapply N; eauto|..]; cbn [root_of];
    split; intros H; try (inversion H; subst; auto; constructor; fail).
  - inversion H; subst. now rewrite H1.
  - destruct (m a) as [[| |]|] eqn:E; inversion H; subst. now constructor.
  - inversion H; subst. now rewrite H1.
  - destruct (m a) as [[| |]|] eqn:E; inversion H; subst. now constructor.
Qed.
Lemma same_root m nu u v : (forall a, u <> REF a) -> (forall a, v <> REF a) ->
  same m nu u v -> root_of m u = root_of m v.
Proof.
  intros Nu Nv Sm. destruct (root_of m u) as [l|] eqn:E.
  - apply (root_lab m nu u l Nu) in E. apply Sm in E. symmetry. now apply (root_lab m nu v l Nv).
  - destruct (root_of m v) as [l|] eqn:E'; auto.
    apply (root_lab m nu v l Nv) in E'. apply Sm in E'. apply (root_lab m nu u l Nu) in E'. congruence.
Qed.

Lemma eqb_norm_flt d1 d2 : not_nan d1 -> not_nan d2 -> norm_flt d1 = norm_flt d2 -> SFeqb d1 d2 = true.
Proof.
  intros N1 N2 E. apply (fltcmp_eq d1 d2 N1 N2) in E. rewrite fltcmp_alt in E.
  unfold SFeqb. destruct (SFcompare d1 d2) as [[]|]; cbn in E; try discriminate; auto.
Qed.

Lemma unify_nonvar_complete c nu uni
  (H : forall s u v r s', wf (LSSA c) (mm s) -> wf_word (LSSA c) (mm s) u ->
       wf_word (LSSA c) (mm s) v -> same (mm s) nu u v -> uni s u v = Ret (r, s') ->
       complete_res nu s r s')
  (H' : forall s u v r s', wf (LSSA c) (mm s) -> wf_word (LSSA c) (mm s) u ->
       wf_word (LSSA c) (mm s) v -> uni s u v = Ret (r, s') -> sound_res c s u v r s') :
  forall s u v r s', wf (LSSA c) (mm s) -> wf_word (LSSA c) (mm s) u ->
  wf_word (LSSA c) (mm s) v -> (forall a, u <> REF a) -> (forall a, v <> REF a) ->
  same (mm s) nu u v -> unify_nonvar uni s u v = Ret (r, s') -> complete_res nu s r s'.
Proof.
  intros s u v r s' W Wu Wv Nu Nv Sm. unfold unify_nonvar.
  destruct (word_eqb u v) eqn:Q.
  { intros E; inversion E; subst. split; [discriminate|]. intros _. apply keeps_refl. }
  pose proof (same_root _ _ _ _ Nu Nv Sm) as RT.
  assert (K : Ret (UFd, s) = Ret (r, s') -> complete_res nu s r s').
  { intros E. inversion E; subst. split; discriminate. }
  destruct v as [b|b|b|j|b|b|k]; destruct u as [a|a|a|i|a|a|n]; auto;
    try (exfalso; eapply Nu; eauto; fail); try (exfalso; eapply Nv; eauto; fail);
    try (cbn in RT; discriminate);
    repeat match goal with
      | X : wf_word _ _ (STC _) |- Ret (UFail, _) = _ -> _ =>
          destruct X as (? & ? & ? & ? & ? & _)
      | X : wf_word _ _ (FLT _) |- Ret (UFail, _) = _ -> _ => destruct X as (? & ? & _)
      end;
    try (exfalso; cbn [root_of] in RT;
         repeat match goal with X : mm s _ = _ |- _ => rewrite X in RT; clear X end;
         inversion RT; subst; tauto).
  - intros E. eapply (unify_args_complete c nu uni H H'); [exact W|apply Wu|apply Wv| |exact E].
    destruct Wu as [_ Wu], Wv as [_ Wv].
    intros i Hi p l. specialize (Sm (i :: p) l). rewrite !lab_lst_iff in Sm.
    specialize (Wu i Hi). specialize (Wv i Hi). tauto.
  - destruct Wu as (f & n & Ea & Na & _ & _ & Wa), Wv as (g & k & Eb & Nb & _ & _ & Wb).
    cbn in RT. rewrite Ea, Eb in RT. inversion RT; subst g k.
    unfold rd_func. rewrite Ea, Eb. cbn [bind fst snd].
    rewrite Z.eqb_refl, Nat.eqb_refl. cbn [andb]. intros E.
    eapply (unify_args_complete c nu uni H H'); [exact W|exact Wa|exact Wb| |exact E].
    intros i Hi p l. specialize (Sm (i :: p) l).
    rewrite (lab_stc_iff _ _ _ _ _ _ _ _ Ea), (lab_stc_iff _ _ _ _ _ _ _ _ Eb) in Sm.
    specialize (Wa i Hi). specialize (Wb i Hi). tauto.
  - cbn in RT. inversion RT; subst. rewrite word_eqb_refl in Q. discriminate.
  - destruct Wu as (d1 & E1 & N1), Wv as (d2 & E2 & N2). cbn in RT. rewrite E1, E2 in RT.
    unfold rd_dbl. rewrite E1, E2. cbn [bind]. inversion RT as [RT'].
    rewrite (eqb_norm_flt d1 d2 (proj1 N1) (proj1 N2) RT'). intros E; inversion E; subst. split; [discriminate|].
    intros _. apply keeps_refl.
  - cbn in RT. inversion RT; subst. rewrite word_eqb_refl in Q. discriminate.
Qed.

Lemma Unify_complete oc c nu fuel (FN : oc = true -> forall a, finite_tree (nu a)) :
  forall s u v r s', wf (LSSA c) (mm s) ->
  wf_word (LSSA c) (mm s) u -> wf_word (LSSA c) (mm s) v -> same (mm s) nu u v ->
  Unify oc fuel c s u v = Ret (r, s') -> complete_res nu s r s'.
Proof.
  induction fuel as [|fuel IH]; intros s u v r s' W Wu Wv Sm; [discriminate|]. cbn [Unify].
  destruct (deref_ok (LSSA c) (mm s) u fuel W Wu) as [->|(u' & -> & Du & Wu' & Ru)]; [discriminate|].
  cbn [bind].
  destruct (deref_ok (LSSA c) (mm s) v fuel W Wv) as [->|(v' & -> & Dv & Wv' & Rv)]; [discriminate|].
  cbn [bind].
  assert (Sm' : same (mm s) nu u' v').
  { eapply same_tree_trans; [apply same_tree_sym; eapply lab_derefs; eauto|].
    eapply same_tree_trans; [apply Sm|eapply lab_derefs; eauto]. }
  clear Sm Wu Wv Du Dv u v.
  assert (BV : forall a w, mm s a = Some (Word (REF a)) -> wf_word (LSSA c) (mm s) w ->
    (forall b, w <> REF b) -> same (mm s) nu (REF a) w ->
    unify_var oc fuel c s a w = Ret (r, s') -> complete_res nu s r s').
  { intros a w Ea Ww Nw Sa. unfold unify_var.
    destruct (if oc && negb (Is_A_Local_Adr c a) then _ else _) as [o| |] eqn:O; cbn [bind]; try discriminate.
    destruct o; intros X; inversion X; subst.
    - exfalso. destruct oc; [|cbn in O; discriminate]. destruct (negb (Is_A_Local_Adr c a)); [|discriminate].
      cbn [andb] in O.
      destruct (Check_true (LSSA c) _ nu fuel W a w Ww O) as (q & Hq & Nq).
      apply (no_strict_self (nu a) q (FN eq_refl a) (Nq Nw)).
      intros p l Hp. apply (lab_unbound _ nu a Ea). apply Sa. apply Hq.
      now apply (lab_unbound _ nu a Ea).
    - split; [discriminate|]. intros _. cbn [Bind_UV mm].
      eapply bind_keeps; eauto. intros b ->. exfalso; eapply Nw; eauto. }
  destruct Ru as [(a & -> & Ea)|Nu].
  - destruct Rv as [(b & -> & Eb)|Nv].
    + destruct (Z.ltb_spec b a); [|destruct (Z.ltb_spec a b)]; intros E; inversion E; subst;
        (split; [discriminate|]); intros _; cbn [Bind_UV mm].
      * apply (bind_keeps (LSSA c) _ nu a (REF b)); auto;
          [intros Q; inversion Q; lia|intros x Q; inversion Q; congruence].
      * apply (bind_keeps (LSSA c) _ nu b (REF a)); auto;
          [intros Q; inversion Q; lia|intros x Q; inversion Q; congruence|now apply same_tree_sym].
      * apply keeps_refl.
    + intros E. apply (BV a v'); auto. destruct v'; auto. exfalso; eapply Nv; eauto.
  - destruct Rv as [(b & -> & Eb)|Nv].
    + intros E. apply (BV b u'); auto; [now apply same_tree_sym|].
      destruct u'; auto. exfalso; eapply Nu; eauto.
    + intros E. apply (unify_nonvar_complete c nu (Unify oc fuel c) IH
        (fun s u v r s' => Unify_sound oc c fuel s u v r s') s u' v' r s'); auto.
      destruct u'; try (destruct v'; auto; exfalso; eapply Nv; eauto; fail).
      exfalso; eapply Nu; eauto.
Qed.

(** ** termination when there is a finite solution *)
Definition terminates {A} (f : nat -> outcome A) : Prop :=
  exists F x, forall fuel, (F <= fuel)%nat -> f fuel = Ret x.

Lemma root_exists L m nu w : wf L m -> wf_word L m w -> (forall a, exists l, nu a [] l) ->
  exists l, lab m nu w [] l.
Proof.
  intros W Ww Hn. destruct (derefs_total L m W w Ww) as [w' D].
  pose proof (derefs_wf L m w w' W D Ww) as Ww'.
  assert (exists l, lab m nu w' [] l) as [l H].
  { destruct (derefs_result _ _ _ D) as [(a & -> & E)|N].
    - destruct (Hn a) as [l Hl]. exists l. now apply lab_var.
    - destruct w' as [a|a|a|i|a|a|n]; [exfalso; eapply N; eauto|..]; cbn in Ww'.
      + eexists; constructor.
      + destruct Ww' as (f & n & E & _). exists (LFun f n). now constructor.
      + eexists; constructor.
      + destruct Ww' as (d & E & _). eexists. constructor. eauto.
      + eexists; constructor.
      + eexists; constructor. }
  exists l. now apply (lab_derefs m nu w w' D).
Qed.

Lemma unify_args_terminates c nu (uni : nat -> st -> word -> word -> outcome (ures * st)) (P : word -> mem -> Prop)
  (PK : forall w m m', P w m -> keeps nu m m' -> P w m')
  (HT : forall s u v, wf (LSSA c) (mm s) -> wf_word (LSSA c) (mm s) u ->
       wf_word (LSSA c) (mm s) v -> same (mm s) nu u v -> P u (mm s) -> terminates (fun f => uni f s u v))
  (H : forall f s u v r s', wf (LSSA c) (mm s) -> wf_word (LSSA c) (mm s) u ->
       wf_word (LSSA c) (mm s) v -> same (mm s) nu u v -> uni f s u v = Ret (r, s') ->
       complete_res nu s r s')
  (H' : forall f s u v r s', wf (LSSA c) (mm s) -> wf_word (LSSA c) (mm s) u ->
       wf_word (LSSA c) (mm s) v -> uni f s u v = Ret (r, s') -> sound_res c s u v r s')
  (Hd : forall m a w, m a = Some (Word w) -> P (REF a) m -> P w m) :
  forall n s a b, (1 <= n)%nat -> wf (LSSA c) (mm s) -> words_at (mm s) a n -> words_at (mm s) b n ->
  (forall i, (i < n)%nat -> same (mm s) nu (REF (a + Z.of_nat i)) (REF (b + Z.of_nat i))) ->
  (forall i, (i < n)%nat -> P (REF (a + Z.of_nat i)) (mm s)) ->
  terminates (fun f => unify_args (uni f) n s a b).
Proof.
  induction n as [|n IH]; intros s a b Hn W Wa Wb Sm HP; [lia|].
  destruct (Wa 0%nat ltac:(lia)) as [u Eu]. destruct (Wb 0%nat ltac:(lia)) as [v Ev].
  rewrite Z.add_0_r in Eu, Ev.
  assert (Wu := wf_cell _ _ W _ _ Eu). assert (Wv := wf_cell _ _ W _ _ Ev).
  assert (S0 : same (mm s) nu u v).
  { specialize (Sm 0%nat ltac:(lia)). cbn [Z.of_nat] in Sm. rewrite !Z.add_0_r in Sm.
    eapply same_tree_trans; [apply same_tree_sym; eapply lab_cell; eauto|].
    eapply same_tree_trans; [apply Sm|eapply lab_cell; eauto]. }
  assert (P0 : P u (mm s)).
  { specialize (HP 0%nat ltac:(lia)). cbn [Z.of_nat] in HP. rewrite !Z.add_0_r in HP. eapply Hd; eauto. }
  destruct (HT s u v W Wu Wv S0 P0) as (F & [r1 s1] & HF).
  assert (Step : forall f, unify_args (uni f) (S n) s a b =
    match n with O => uni f s u v | S _ => do r <- uni f s u v;
      match r with (USucc, s') => unify_args (uni f) n s' (a + 1) (b + 1) | r => Ret r end end).
  { intros f. cbn [unify_args]. unfold rd_word. rewrite Eu, Ev. reflexivity. }
  destruct n as [|n].
  { exists F, (r1, s1). intros f Lf. rewrite Step. auto. }
  assert (E1 := HF F (Nat.le_refl _)).
  destruct (H' _ _ _ _ _ _ W Wu Wv E1) as [G _].
  destruct (H _ _ _ _ _ _ W Wu Wv S0 E1) as [NF K].
  destruct r1.
  - specialize (K eq_refl).
    destruct (IH s1 (a + 1) (b + 1)) as (F2 & x & HF2); try lia.
    + apply G.
    + intros i Hi. destruct (Wa (S i) ltac:(lia)) as [w Ew].
      replace (a + 1 + Z.of_nat i) with (a + Z.of_nat (S i)) by lia. eapply ext_word; [apply G|eauto].
    + intros i Hi. destruct (Wb (S i) ltac:(lia)) as [w Ew].
      replace (b + 1 + Z.of_nat i) with (b + Z.of_nat (S i)) by lia. eapply ext_word; [apply G|eauto].
    + intros i Hi. specialize (Sm (S i) ltac:(lia)).
      replace (a + 1 + Z.of_nat i) with (a + Z.of_nat (S i)) by lia.
      replace (b + 1 + Z.of_nat i) with (b + Z.of_nat (S i)) by lia. eapply keeps_same; eauto.
    + intros i Hi. replace (a + 1 + Z.of_nat i) with (a + Z.of_nat (S i)) by lia.
      eapply PK; [apply HP; lia|auto].
    + exists (Nat.max F F2), x. intros f Lf. rewrite Step, HF by lia. cbn [bind]. apply HF2. lia.
  - congruence.
  - exists F, (UFd, s1). intros f Lf. rewrite Step, HF by lia. reflexivity.
Qed.

Lemma Unify_terminates c nu (HN : forall a, exists l, nu a [] l) N :
  forall s u v, wf (LSSA c) (mm s) ->
  wf_word (LSSA c) (mm s) u -> wf_word (LSSA c) (mm s) v -> same (mm s) nu u v ->
  (forall p l, lab (mm s) nu u p l -> (length p <= N)%nat) ->
  terminates (fun fuel => Unify false fuel c s u v).
Proof.
  induction N as [|N IH]; intros s u v W Wu Wv Sm BD;
    destruct (derefs_total _ _ W u Wu) as [u' Du]; destruct (derefs_total _ _ W v Wv) as [v' Dv];
    destruct (derefs_fun _ _ _ Du) as [Fu Hu]; destruct (derefs_fun _ _ _ Dv) as [Fv Hv];
    pose proof (derefs_wf _ _ _ _ W Du Wu) as Wu'; pose proof (derefs_wf _ _ _ _ W Dv Wv) as Wv';
    assert (Sm' : same (mm s) nu u' v')
      by (eapply same_tree_trans; [apply same_tree_sym; eapply lab_derefs; eauto|];
          eapply same_tree_trans; [apply Sm|eapply lab_derefs; eauto]);
    assert (Red : terminates (fun fuel => match u' with
      | REF a =>
        match v' with
        | REF b =>
          if b <? a then Ret (USucc, Bind_UV c s a (REF b))
          else if a <? b then Ret (USucc, Bind_UV c s b (REF a))
          else Ret (USucc, s)
        | _ => unify_var false fuel c s a v'
        end
      | _ =>
        match v' with
        | REF b => unify_var false fuel c s b u'
        | _ => unify_nonvar (Unify false fuel c) s u' v'
        end
      end) -> terminates (fun fuel => Unify false fuel c s u v))
      by (intros (F & x & HF); exists (S (F + Fu + Fv)), x; intros [|f] Lf; [lia|];
          cbn [Unify]; rewrite Hu, Hv by lia; cbn [bind]; rewrite <- (HF f) by lia; reflexivity);
    apply Red; clear Red.
  - destruct u' as [a|a|a|i|a|a|n].
    1: destruct v'; [destruct (_ <? _); [|destruct (_ <? _)]|..]; eexists O, _; intros; reflexivity.
    all: destruct v' as [b|b|b|j|b|b|k]; try (eexists O, _; intros; reflexivity);
      unfold unify_nonvar; cbn [word_eqb];
      try (destruct (a =? b)); try (destruct (i =? j)); try (destruct (n =? k));
      try (eexists O, _; intros; reflexivity).
    + exfalso. destruct Wu' as [_ Wd]. destruct (Wd 0%nat ltac:(lia)) as [w E].
      destruct (root_exists _ _ nu w W (wf_cell _ _ W _ _ E) HN) as [l Hl].
      assert (Q : lab (mm s) nu u [0%nat] l).
      { apply (lab_derefs (mm s) nu u _ Du). econstructor; eauto. }
      apply BD in Q. cbn in Q. lia.
    + exfalso. destruct Wu' as (f & n & Ea & Na & _ & _ & Wd). destruct (Wd 0%nat ltac:(lia)) as [w E].
      destruct (root_exists _ _ nu w W (wf_cell _ _ W _ _ E) HN) as [l Hl].
      assert (Q : lab (mm s) nu u [0%nat] l).
      { apply (lab_derefs (mm s) nu u _ Du). eapply lab_stc_arg; eauto. }
      apply BD in Q. cbn in Q. lia.
    + destruct Wu' as (d1 & E1 & _), Wv' as (d2 & E2 & _). unfold rd_dbl. rewrite E1, E2.
      eexists O, _; intros; reflexivity.
  - assert (UA : forall n x y, (1 <= n)%nat -> words_at (mm s) x n -> words_at (mm s) y n ->
      (forall i, (i < n)%nat -> same (mm s) nu (REF (x + Z.of_nat i)) (REF (y + Z.of_nat i))) ->
      (forall i, (i < n)%nat -> forall p l, lab (mm s) nu (REF (x + Z.of_nat i)) p l -> (length p <= N)%nat) ->
      terminates (fun f => unify_args (Unify false f c) n s x y)).
    { intros n x y Hn Wx Wy Sxy Bx.
      apply (unify_args_terminates c nu (fun f => Unify false f c)
        (fun w m => forall p l, lab m nu w p l -> (length p <= N)%nat)); auto.
      - intros w m m' H K p l Q. apply (K w) in Q. eauto.
      - intros f s0 u0 v0 r0 s0' A1 A2 A3 A4 A5. apply (Unify_complete false c nu f ltac:(discriminate) _ _ _ _ _ A1 A2 A3 A4 A5).
      - intros f s0 u0 v0 r0 s0' A1 A2 A3 A5. eapply Unify_sound; eauto.
      - intros m a w E H p l Q. apply (lab_cell m nu a w E) in Q. eauto. }
    destruct u' as [a|a|a|i|a|a|n].
    1: destruct v'; [destruct (_ <? _); [|destruct (_ <? _)]|..]; eexists O, _; intros; reflexivity.
    all: destruct v' as [b|b|b|j|b|b|k]; try (eexists O, _; intros; reflexivity);
      unfold unify_nonvar; cbn [word_eqb];
      try (destruct (a =? b)); try (destruct (i =? j)); try (destruct (n =? k));
      try (eexists O, _; intros; reflexivity).
    + destruct Wu' as [_ Wu'], Wv' as [_ Wv']. apply UA; auto.
      * intros i Hi p l. specialize (Sm' (i :: p) l). rewrite !lab_lst_iff in Sm'.
        specialize (Wu' i Hi). specialize (Wv' i Hi). tauto.
      * intros i Hi p l Q. assert (X : lab (mm s) nu u (i :: p) l).
        { apply (lab_derefs (mm s) nu u _ Du). apply lab_lst_iff. auto. }
        apply BD in X. cbn in X. lia.
    + destruct Wu' as (f & n & Ea & Na & _ & _ & Wa), Wv' as (g & k & Eb & Nb & _ & _ & Wb).
      unfold rd_func. rewrite Ea, Eb. cbn [bind fst snd].
      destruct (Z.eqb_spec f g) as [->|]; cbn [andb]; [|eexists O, _; intros; reflexivity].
      destruct (Nat.eqb_spec n k) as [->|]; cbn [andb]; [|eexists O, _; intros; reflexivity].
      apply UA; auto.
      * intros i Hi p l. specialize (Sm' (i :: p) l).
        rewrite (lab_stc_iff _ _ _ _ _ _ _ _ Ea), (lab_stc_iff _ _ _ _ _ _ _ _ Eb) in Sm'.
        specialize (Wa i Hi). specialize (Wb i Hi). tauto.
      * intros i Hi p l Q. assert (X : lab (mm s) nu u (i :: p) l).
        { apply (lab_derefs (mm s) nu u _ Du). eapply lab_stc_iff; eauto. }
        apply BD in X. cbn in X. lia.
    + destruct Wu' as (d1 & E1 & _), Wv' as (d2 & E2 & _). unfold rd_dbl. rewrite E1, E2.
      eexists O, _; intros; reflexivity.
Qed.
