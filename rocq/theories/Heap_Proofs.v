Require Import ZArith List Bool Lia Floats.SpecFloat.
Require Import Verif.Term_Model Verif.Term_Proofs Verif.Heap_Model.
Import ListNotations.
Open Scope Z_scope.

Lemma word_eqb_eq u v : word_eqb u v = true <-> u = v.
Proof.
  destruct u, v; cbn; try (split; congruence); rewrite Z.eqb_eq; split; congruence.
Qed.
Lemma word_eqb_refl u : word_eqb u u = true.
Proof. now apply word_eqb_eq. Qed.
Lemma word_eqb_neq u v : word_eqb u v = false <-> u <> v.
Proof. rewrite <- word_eqb_eq. destruct (word_eqb u v); split; congruence. Qed.

(** ** Relational dereference *)
Inductive derefs (m : mem) : word -> word -> Prop :=
| drf_self a : m a = Some (Word (REF a)) -> derefs m (REF a) (REF a)
| drf_step a w w' : m a = Some (Word w) -> w <> REF a -> derefs m w w' -> derefs m (REF a) w'
| drf_other w : (forall a, w <> REF a) -> derefs m w w.

Lemma derefs_fun m w w' : derefs m w w' ->
  exists N, forall f, (N <= f)%nat -> deref f m w = Ret w'.
Proof.
  induction 1 as [a E|a w w' E N D [F IH]|w N].
  - exists 1%nat. intros [|f] L; [lia|]. cbn. unfold rd_word. rewrite E. cbn.
    now rewrite Z.eqb_refl.
  - exists (S F). intros [|f] L; [lia|]. cbn. unfold rd_word. rewrite E. cbn [bind].
    apply word_eqb_neq in N. rewrite N. apply IH; lia.
  - exists 1%nat. intros [|f] L; [lia|]. destruct w; auto. exfalso; eapply N; eauto.
Qed.

Lemma deref_derefs f : forall m w w', deref f m w = Ret w' -> derefs m w w'.
Proof.
  induction f as [|f IH]; intros m w w'; [discriminate|]. cbn.
  destruct w; try (intros E; inversion E; subst; apply drf_other; congruence).
  unfold rd_word. destruct (m a) as [[w| |]|] eqn:E; try discriminate. cbn [bind].
  destruct (word_eqb w (REF a)) eqn:Q; intros H.
  - apply word_eqb_eq in Q. inversion H; subst. now constructor.
  - apply word_eqb_neq in Q. eapply drf_step; eauto.
Qed.

Lemma derefs_det m w w1 : derefs m w w1 -> forall w2, derefs m w w2 -> w1 = w2.
Proof.
  induction 1 as [a E|a w w1 E N D IH|w N]; intros w2 H; inversion H; subst; auto; try congruence;
    try (exfalso; eapply N; eauto; fail); try (exfalso; eapply H0; eauto; fail).
  apply IH. replace w with w0 by congruence. auto.
Qed.

(** result of a dereference: an unbound variable or a non reference *)
Lemma derefs_result m w w' : derefs m w w' ->
  (exists a, w' = REF a /\ m a = Some (Word (REF a))) \/ (forall a, w' <> REF a).
Proof. induction 1; eauto. Qed.

Lemma deref_mono f : forall m w r, deref f m w = r -> r <> NoFuel ->
  forall f', (f <= f')%nat -> deref f' m w = r.
Proof.
  induction f as [|f IH]; intros m w r H N f' L; [cbn in H; congruence|].
  destruct f' as [|f']; [lia|]. cbn in *. destruct w; auto.
  destruct (rd_word m a) as [w| |]; cbn [bind] in *; auto.
  destruct (word_eqb w (REF a)); auto. apply IH; auto; lia.
Qed.

(** ** den and dereference *)
Ltac noref := intros ?; discriminate.

Lemma derefs_ref_inv m a w w' : m a = Some (Word w) -> w <> REF a -> derefs m (REF a) w' ->
  derefs m w w'.
Proof.
  intros E N D. inversion D; subst.
  - congruence.
  - replace w with w0 by congruence. auto.
  - exfalso. eapply H; eauto.
Qed.

Lemma den_derefs m w t : den m w t -> exists w', derefs m w w' /\ den m w' t.
Proof.
  revert w t.
  apply (den_mut m (fun w t _ => exists w', derefs m w w' /\ den m w' t)
                 (fun a ts _ => True)); auto;
    intros; try (eexists; split; [apply drf_other; noref|]; econstructor; eauto; fail).
  - exists (REF a). split; [constructor; auto|constructor; auto].
  - destruct H as [w' [R D']]. exists w'. split; auto. econstructor; eauto.
Qed.

(** a dereferenced word and its term *)
Lemma derefs_den m w w' : derefs m w w' -> forall t, den m w t -> den m w' t.
Proof.
  induction 1; intros t D; auto. apply IHderefs. inversion D; subst; try congruence.
Qed.
Lemma derefs_den_back m w w' : derefs m w w' -> forall t, den m w' t -> den m w t.
Proof.
  induction 1; intros t D; auto. econstructor; eauto.
Qed.

Lemma derefs_idem m w w' : derefs m w w' -> derefs m w' w'.
Proof. induction 1; auto; constructor; auto. Qed.

(** ** Term_Compare computes the order on trees *)
Ltac prep :=
  let u0 := fresh "u0" in let u' := fresh "u'" in let v := fresh "v" in let t2 := fresh "t2" in
  let Ru0 := fresh "Ru0" in
  intros u0 u' Ru0 Ru v t2 D2;
  destruct (den_derefs _ _ _ D2) as [v' [Rv Dv]];
  destruct (derefs_fun _ _ _ Rv) as [Fv Hv]; destruct (derefs_fun _ _ _ Ru) as [Fu Hu];
  pose proof (derefs_result _ _ _ Rv) as RR;
  match type of Ru0 with derefs _ ?w _ =>
    assert (u' = w) by (inversion Ru0; subst; auto; try congruence); subst u' end.
Ltac simple_case Fu Fv Hu Hv Dv RR :=
  exists (S (Fu + Fv)); intros [|fuel] LF; [lia|]; cbn [Term_Compare];
  rewrite Hu, Hv by lia; cbn [bind]; inversion Dv; subst; cbn [tcmp bind]; auto;
  try (exfalso; destruct RR as [[? [RE ?]]|RE]; [inversion RE; subst; congruence|eapply RE; eauto]; fail).
Section Compare.
Variable name : Z -> list Z.

Lemma Term_Compare_correct m u t1 : den m u t1 -> forall v t2, den m v t2 ->
  exists F, forall fuel, (F <= fuel)%nat -> Term_Compare name fuel m u v = Ret (tcmp name t1 t2).
Proof.
  intros D1.
  assert (G : forall u0 u', derefs m u u' -> derefs m u0 u' -> forall v t2, den m v t2 ->
    exists F, forall fuel, (F <= fuel)%nat ->
      Term_Compare name fuel m u0 v = Ret (tcmp name t1 t2)).
  2: { destruct (den_derefs _ _ _ D1) as [u' [R _]]. eapply G; eauto. }
  revert u t1 D1.
  apply (den_mut m
    (fun u t1 _ => forall u0 u', derefs m u u' -> derefs m u0 u' -> forall v t2, den m v t2 ->
      exists F, forall fuel, (F <= fuel)%nat ->
      Term_Compare name fuel m u0 v = Ret (tcmp name t1 t2))
    (fun a ts _ => forall b ts', den_args m b ts' -> length ts = length ts' ->
      exists F, forall fuel, (F <= fuel)%nat ->
      cmp_args (Term_Compare name fuel m) m (length ts) a b = Ret (tcmp_args name ts ts'))).
  2: { intros a w t E N D IH u0 u' R1 R2 v t2 D2. eapply IH; eauto.
       eapply derefs_ref_inv; eauto. }
  9: { intros a w t ts E D IH DA IHA b ts' DB L. inversion DB as [|b' w2 t2 ts2 E2 D2 DA2]; subst;
       [discriminate|].
       destruct (den_derefs _ _ _ D) as [w' [R _]].
       destruct (IH _ _ R R _ _ D2) as [F1 H1].
       destruct (IHA _ _ DA2 ltac:(cbn in L; lia)) as [F2 H2].
       exists (Nat.max F1 F2). intros fuel LF. cbn [length cmp_args]. unfold rd_word.
       rewrite E, E2. cbn [bind]. rewrite H1 by lia. cbn [bind tcmp_args].
       destruct (tcmp name t t2 =? 0); cbn [negb]; auto. apply H2. lia. }
  8: { intros a b ts' DB L. destruct ts'; [|discriminate]. exists O. reflexivity. }
  - intros a E; prep; simple_case Fu Fv Hu Hv Dv RR.
  - intros a; prep; simple_case Fu Fv Hu Hv Dv RR.
  - intros a d E; prep; simple_case Fu Fv Hu Hv Dv RR. unfold rd_dbl. rewrite E, H. reflexivity.
  - intros n; prep; simple_case Fu Fv Hu Hv Dv RR.
  - intros n; prep; simple_case Fu Fv Hu Hv Dv RR.
  - intros a t1 t2 DA IHA; prep.
    inversion Dv; subst; try (exists (S (Fu + Fv)); intros [|fuel] LF; [lia|]; cbn [Term_Compare];
        rewrite Hu, Hv by lia; reflexivity).
    + exfalso; destruct RR as [[? [RE ?]]|RE]; [inversion RE; subst; congruence|eapply RE; eauto].
    + destruct (IHA _ _ H eq_refl) as [FA HA].
      exists (S (Fu + Fv + FA)); intros [|fuel] LF; [lia|]. cbn [Term_Compare].
      rewrite Hu, Hv by lia. rewrite tcmp_cmp. cbn [bind rd_compound]. rewrite !Z.eqb_refl.
      cbn [negb length]. change (2%nat) with (length [t1;t2]). rewrite HA by lia. reflexivity.
    + destruct (Z.eqb_spec (Z.of_nat 2) (Z.of_nat (length ts))) as [L|L].
      * destruct (IHA _ _ H0 ltac:(cbn; lia)) as [FA HA].
        exists (S (Fu + Fv + FA)); intros [|fuel] LF; [lia|]. cbn [Term_Compare].
        rewrite Hu, Hv by lia. rewrite tcmp_cmp. cbn [bind rd_compound]. unfold rd_func. rewrite H. cbn [bind fst snd].
        cbv zeta. change (length [t1;t2]) with 2%nat. rewrite <- L, Z.eqb_refl. cbn [negb].
        destruct (ATOM_DOT =? f); cbn [negb]; auto.
        change (2%nat) with (length [t1;t2]). rewrite HA by lia. reflexivity.
      * exists (S (Fu + Fv)); intros [|fuel] LF; [lia|]. cbn [Term_Compare].
        rewrite Hu, Hv by lia. rewrite tcmp_cmp. cbn [bind rd_compound]. unfold rd_func. rewrite H. cbn [bind fst snd].
        cbv zeta. change (length [t1;t2]) with 2%nat.
        destruct (Z.eqb_spec (Z.of_nat 2) (Z.of_nat (length ts))); [congruence|reflexivity].
  - intros a f ts E DA IHA; prep.
    inversion Dv; subst; try (exists (S (Fu + Fv)); intros [|fuel] LF; [lia|]; cbn [Term_Compare];
        rewrite Hu, Hv by lia; reflexivity).
    + exfalso; destruct RR as [[? [RE ?]]|RE]; [inversion RE; subst; congruence|eapply RE; eauto].
    + destruct (Z.eqb_spec (Z.of_nat (length ts)) (Z.of_nat 2)) as [L|L].
      * destruct (IHA _ _ H ltac:(cbn; lia)) as [FA HA].
        exists (S (Fu + Fv + FA)); intros [|fuel] LF; [lia|]. cbn [Term_Compare].
        rewrite Hu, Hv by lia. rewrite tcmp_cmp. cbn [bind rd_compound]. unfold rd_func. rewrite E. cbn [bind fst snd].
        cbv zeta. change (length [t1;t0]) with 2%nat. rewrite L, Z.eqb_refl. cbn [negb].
        destruct (f =? ATOM_DOT); cbn [negb]; auto. rewrite HA by lia. reflexivity.
      * exists (S (Fu + Fv)); intros [|fuel] LF; [lia|]. cbn [Term_Compare].
        rewrite Hu, Hv by lia. rewrite tcmp_cmp. cbn [bind rd_compound]. unfold rd_func. rewrite E. cbn [bind fst snd].
        cbv zeta. change (length [t1;t0]) with 2%nat.
        destruct (Z.eqb_spec (Z.of_nat (length ts)) (Z.of_nat 2)); [congruence|reflexivity].
    + destruct (Z.eqb_spec (Z.of_nat (length ts)) (Z.of_nat (length ts0))) as [L|L].
      * destruct (IHA _ _ H0 ltac:(lia)) as [FA HA].
        exists (S (Fu + Fv + FA)); intros [|fuel] LF; [lia|]. cbn [Term_Compare].
        rewrite Hu, Hv by lia. rewrite tcmp_cmp. cbn [bind rd_compound]. unfold rd_func. rewrite E, H. cbn [bind fst snd].
        cbv zeta. rewrite <- L, Z.eqb_refl. cbn [negb].
        destruct (f =? f0); cbn [negb]; auto. rewrite HA by lia. reflexivity.
      * exists (S (Fu + Fv)); intros [|fuel] LF; [lia|]. cbn [Term_Compare].
        rewrite Hu, Hv by lia. rewrite tcmp_cmp. cbn [bind rd_compound]. unfold rd_func. rewrite E, H. cbn [bind fst snd].
        cbv zeta.
        destruct (Z.eqb_spec (Z.of_nat (length ts)) (Z.of_nat (length ts0))); [congruence|reflexivity].
Qed.
End Compare.
