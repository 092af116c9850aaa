Require Import ZArith List Bool Lia.
Require Import Verif.Term_Model Verif.Heap_Model Verif.Heap_Proofs Verif.Unify_Model Verif.Unify_Spec Verif.Unify_Proofs.
Require Import Verif.Binding_Model Verif.Binding_Spec.
Import ListNotations.
Open Scope Z_scope.

Lemma discard_lt lt m a : a < lt -> discard lt m a = m a.
Proof. intros Q. unfold discard. destruct (Z.leb_spec lt a); auto; lia. Qed.
Lemma discard_some lt m a c : discard lt m a = Some c -> a < lt /\ m a = Some c.
Proof. unfold discard. destruct (Z.leb_spec lt a); [discriminate|auto]. Qed.

(** below [lt], everything but a plain reference stays well-formed *)
Lemma discard_wf_word L lt m w : L <= lt -> wf_word L m w ->
  (forall b, w = REF b -> b < lt) -> wf_word L (discard lt m) w.
Proof.
  intros Hl Ww Hr. destruct w as [b|b|b|i|b|b|k]; cbn in *; auto.
  - rewrite discard_lt; auto.
  - destruct Ww as [Q1 Q2]. split; auto. intros i Hi. rewrite discard_lt by lia. auto.
  - destruct Ww as (f & n & E & N & F & Q & Ws). exists f, n. rewrite discard_lt by lia.
    repeat split; auto. intros i Hi. rewrite discard_lt by lia. auto.
  - destruct Ww as (d & E & N & Q). exists d. rewrite discard_lt by lia. auto.
  - destruct Ww as [E Q]. rewrite discard_lt by lia. auto.
Qed.

Lemma discard_wf L lt m : L <= lt -> wf L m -> wf L (discard lt m).
Proof.
  intros Hl W. constructor.
  - intros a c E. apply discard_some in E as [_ E]. eapply wf_pos; eauto.
  - intros a w E. apply discard_some in E as [Q E]. apply discard_wf_word; auto.
    + eapply wf_cell; eauto.
    + intros b ->. destruct (wf_ref _ _ W _ _ E) as [R|R]; lia.
  - intros a b E. apply discard_some in E as [Q E]. exact (wf_ref _ _ W _ _ E).
  - intros a w E. apply discard_some in E as [Q E]. destruct (wf_drf _ _ W _ _ E) as [w' D].
    exists w'. assert (R : forall b, w = REF b -> b < lt).
    { intros b ->. destruct (wf_ref _ _ W _ _ E) as [R|R]; lia. }
    clear E. induction D as [x Ex|x y y' Ex Nx D IH|y Ny].
    + apply drf_self. rewrite discard_lt; auto.
    + specialize (R x eq_refl). eapply drf_step; [rewrite discard_lt by auto; exact Ex|auto|].
      apply IH. intros b ->. destruct (wf_ref _ _ W _ _ Ex) as [R1|R1]; lia.
    + now apply drf_other.
Qed.

Lemma discard_lab_incl lt m nu w p l : lab (discard lt m) nu w p l -> lab m nu w p l.
Proof.
  induction 1 as [a p l E N1|a y p l E N1 D IH|n|i|a d E|a|a|a i y p l Hi E D IH|a f n E|a f n i y p l E Hi E2 D IH];
    try apply discard_some in E as [? E]; try apply discard_some in E2 as [? E2].
  - now apply lab_var.
  - eapply lab_ref; eauto.
  - constructor.
  - constructor.
  - now constructor.
  - constructor.
  - constructor.
  - eapply lab_lst_arg; eauto.
  - eapply lab_stc; eauto.
  - eapply lab_stc_arg; eauto.
Qed.

(** a word that is still well-formed stands for the same tree *)
Lemma discard_lab L lt m nu : L <= lt -> wf L m -> forall w, wf_word L (discard lt m) w ->
  same_tree (lab (discard lt m) nu w) (lab m nu w).
Proof.
  intros Hl W w Ww p l. split; [apply discard_lab_incl|].
  assert (W' := discard_wf L lt m Hl W).
  intros Q. revert Ww.
  induction Q as [a p l E N1|a y p l E N1 D IH|n|i|a d E|a|a|a i y p l Hi E D IH|a f n E|a f n i y p l E Hi E2 D IH];
    intros Ww.
  - destruct Ww as [w' Ew]. pose proof (discard_some _ _ _ _ Ew) as [Q _]. apply lab_var; auto. now rewrite discard_lt.
  - destruct Ww as [w' Ew]. pose proof (discard_some _ _ _ _ Ew) as [Q Ew']. rewrite E in Ew'. injection Ew' as <-.
    eapply lab_ref; eauto. apply IH. eapply wf_cell; eauto.
  - constructor.
  - constructor.
  - destruct Ww as (d' & Ed & _). pose proof (discard_some _ _ _ _ Ed) as [_ Ed']. rewrite E in Ed'. injection Ed' as <-.
    now constructor.
  - constructor.
  - constructor.
  - destruct Ww as [_ Ws]. destruct (Ws i Hi) as [w' Ew]. pose proof (discard_some _ _ _ _ Ew) as [_ Ew']. rewrite E in Ew'. injection Ew' as <-.
    eapply lab_lst_arg; eauto. apply IH. eapply wf_cell; eauto.
  - destruct Ww as (f' & n' & E' & _). pose proof (discard_some _ _ _ _ E') as [_ E'']. rewrite E in E''. injection E'' as <- <-.
    eapply lab_stc; eauto.
  - destruct Ww as (f' & n' & E' & _ & _ & _ & Ws). pose proof (discard_some _ _ _ _ E') as [_ E'']. rewrite E in E''. injection E'' as <- <-.
    destruct (Ws i Hi) as [w' Ew]. pose proof (discard_some _ _ _ _ Ew) as [_ Ew']. rewrite E2 in Ew'. injection Ew' as <-.
    eapply lab_stc_arg; eauto. apply IH. eapply wf_cell; eauto.
Qed.

(** ** new cells *)
Lemma fresh_words m a c x n : m a = None -> words_at m x n -> words_at (store m a c) x n.
Proof.
  intros N Ws i Hi. destruct (Ws i Hi) as [w E]. exists w. rewrite store_other; auto. congruence.
Qed.
Lemma fresh_wf_word L m a c w : m a = None -> wf_word L m w -> wf_word L (store m a c) w.
Proof.
  intros N Ww.
  assert (K : forall x c', m x = Some c' -> store m a c x = Some c').
  { intros x c' E. rewrite store_other; auto. congruence. }
  destruct w as [b|b|b|i|b|b|k]; cbn in *; auto.
  - destruct Ww as [w' E]. eauto.
  - destruct Ww as [Q1 Q2]. split; auto. now apply fresh_words.
  - destruct Ww as (f & n & E & N' & F & Q & Ws). exists f, n. repeat split; auto. now apply fresh_words.
  - destruct Ww as (d & E & N' & Q). exists d. auto.
  - destruct Ww as [E Q]. auto.
Qed.
Lemma fresh_wf L m a w : wf L m -> m a = None -> 0 <= a ->
  (w = REF a \/ (wf_word L m w /\ forall b, w = REF b -> b <= a \/ b < L)) ->
  wf L (store m a (Word w)).
Proof.
  intros W N P Hw. constructor.
  - intros x c. destruct (Z.eq_dec x a) as [->|Nx]; auto. rewrite store_other by auto. apply (wf_pos _ _ W).
  - intros x w'. destruct (Z.eq_dec x a) as [->|Nx].
    + rewrite store_same. injection 1 as <-. destruct Hw as [->|[Ww _]].
      * cbn. exists (REF a). apply store_same.
      * now apply fresh_wf_word.
    + rewrite store_other by auto. intros E. apply fresh_wf_word; auto. eapply wf_cell; eauto.
  - intros x b. destruct (Z.eq_dec x a) as [->|Nx].
    + rewrite store_same. injection 1 as Eb. destruct Hw as [Q|[_ Hb]]; [left; assert (b = a) by congruence; lia|].
      exact (Hb b Eb).
    + rewrite store_other by auto. intros E. exact (wf_ref _ _ W _ _ E).
  - assert (K : forall u u', derefs m u u' -> derefs (store m a (Word w)) u u').
    { induction 1 as [x Ex|x y y' Ex Nx D IH|y Ny].
      - apply drf_self. rewrite store_other; auto. congruence.
      - eapply drf_step; eauto. rewrite store_other; auto. congruence.
      - now apply drf_other. }
    intros x w'. destruct (Z.eq_dec x a) as [->|Nx].
    + rewrite store_same. injection 1 as <-. destruct Hw as [->|[Ww _]].
      * exists (REF a). apply drf_self, store_same.
      * destruct (derefs_total L m W w Ww) as [u' Du]. eauto.
    + rewrite store_other by auto. intros E. destruct (wf_drf _ _ W _ _ E) as [u' Du]. eauto.
Qed.
Lemma fresh_lab L m a c nu w : wf L m -> m a = None -> wf_word L m w ->
  same_tree (lab (store m a c) nu w) (lab m nu w).
Proof.
  intros W N Ww p l.
  assert (K : forall x c', m x = Some c' -> store m a c x = Some c').
  { intros x c' E. rewrite store_other; auto. congruence. }
  split; intros Q; revert Ww.
  - induction Q as [x p l E N1|x y p l E N1 D IH|n|i|x d E|x|x|x i y p l Hi E D IH|x f n E|x f n i y p l E Hi E2 D IH];
      intros Ww; try solve [constructor].
    + destruct Ww as [w' Ew]. rewrite (K _ _ Ew) in E. injection E as ->. now apply lab_var.
    + destruct Ww as [w' Ew]. rewrite (K _ _ Ew) in E. injection E as ->. eapply lab_ref; eauto. apply IH. eapply wf_cell; eauto.
    + destruct Ww as (d' & Ed & _). rewrite (K _ _ Ed) in E. injection E as ->. now constructor.
    + destruct Ww as [_ Ws]. destruct (Ws i Hi) as [w' Ew]. rewrite (K _ _ Ew) in E. injection E as ->.
      eapply lab_lst_arg; eauto. apply IH. eapply wf_cell; eauto.
    + destruct Ww as (f' & n' & E' & _). rewrite (K _ _ E') in E. injection E as -> ->. eapply lab_stc; eauto.
    + destruct Ww as (f' & n' & E' & _ & _ & _ & Ws). rewrite (K _ _ E') in E. injection E as -> ->.
      destruct (Ws i Hi) as [w' Ew]. rewrite (K _ _ Ew) in E2. injection E2 as ->.
      eapply lab_stc_arg; eauto. apply IH. eapply wf_cell; eauto.
  - induction Q as [x p l E N1|x y p l E N1 D IH|n|i|x d E|x|x|x i y p l Hi E D IH|x f n E|x f n i y p l E Hi E2 D IH];
      intros Ww; try solve [constructor].
    + apply lab_var; auto.
    + eapply lab_ref; eauto. apply IH. eapply wf_cell; eauto.
    + now constructor; apply K.
    + eapply lab_lst_arg; eauto. apply IH. eapply wf_cell; eauto.
    + eapply lab_stc; eauto.
    + eapply lab_stc_arg; eauto. apply IH. eapply wf_cell; eauto.
Qed.

Lemma Globalize_ok c s a w' s' : wf (LSSA c) (mm (hm s)) -> free_from (LSSA c) (hH s) (mm (hm s)) ->
  mm (hm s) a = Some (Word (REF a)) -> LSSA c <= a -> Globalize_Local_Unbound_Var c s a = (w', s') ->
  w' = REF (hH s) /\ hH s' = hH s + 1 /\ wf (LSSA c) (mm (hm s')) /\
  mm (hm s') (hH s) = Some (Word (REF (hH s))) /\ mm (hm s') a = Some (Word (REF (hH s))) /\
  (forall x, x <> a -> x <> hH s -> mm (hm s') x = mm (hm s) x) /\
  (forall nu' w, wf_word (LSSA c) (mm (hm s)) w ->
     wf_word (LSSA c) (mm (hm s')) w /\
     same_tree (lab (mm (hm s')) nu' w) (lab (mm (hm s)) (fun x => lab (mm (hm s')) nu' (REF x)) w)).
Proof.
  intros W [P F] Ua La E. unfold Globalize_Local_Unbound_Var in E. injection E as <- <-.
  cbn [hm hH mm Bind_UV]. set (h := hH s) in *. set (m := mm (hm s)) in *.
  assert (N : m h = None) by (apply F; lia).
  assert (W1 : wf (LSSA c) (store m h (Word (REF h)))) by (apply fresh_wf; auto; lia).
  assert (U1 : store m h (Word (REF h)) a = Some (Word (REF a))) by (rewrite store_other by lia; auto).
  assert (W2 : wf_word (LSSA c) (store m h (Word (REF h))) (REF h)) by (exists (REF h); apply store_same).
  assert (B1 : bindable a (REF h)) by (intros b Q; injection Q as <-; lia).
  assert (W' := bind_wf (LSSA c) _ a (REF h) W1 U1 W2 B1 (drf_self _ _ (store_same _ _ _))). cbn [Do_Copy_Of_Word] in W'.
  assert (X := store_ext _ a (REF h) U1).
  split; [reflexivity|]. split; [reflexivity|]. split; [exact W'|].
  split; [rewrite store_other by lia; apply store_same|]. split; [apply store_same|].
  split; [intros x N1 N2; now rewrite !store_other by auto|].
  intros nu' w Ww. assert (Ww1 := fresh_wf_word _ _ h (Word (REF h)) _ N Ww).
  split; [eapply ext_wf_word; eauto|].
  eapply same_tree_trans; [apply (ext_lab _ _ nu' X)|]. eapply fresh_lab; eauto.
Qed.

Lemma copy_not_ref w b : (forall a, w <> REF a) -> Do_Copy_Of_Word w = REF b -> w = FDV b.
Proof. destruct w; cbn; intros N Q; try congruence. Qed.

Lemma copy_wf L m w : wf_word L m w -> wf_word L m (Do_Copy_Of_Word w).
Proof. destruct w; cbn; auto. intros [E _]. eauto. Qed.

Lemma push_ok c s w : wf (LSSA c) (mm (hm s)) -> free_from (LSSA c) (hH s) (mm (hm s)) ->
  wf_word (LSSA c) (mm (hm s)) w -> (forall b, w = REF b -> b < LSSA c) ->
  wf (LSSA c) (mm (hm (Global_Push s w))) /\
  (forall nu x, wf_word (LSSA c) (mm (hm s)) x -> wf_word (LSSA c) (mm (hm (Global_Push s w))) x /\
     same_tree (lab (mm (hm (Global_Push s w))) nu x) (lab (mm (hm s)) nu x)).
Proof.
  intros W [P F] Ww Lw. unfold Global_Push. cbn [hm hH mm].
  assert (N : mm (hm s) (hH s) = None) by (apply F; lia). split.
  - apply fresh_wf; auto; lia.
  - intros nu x Wx. split; [now apply fresh_wf_word|eapply fresh_lab; eauto].
Qed.
