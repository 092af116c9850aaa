(** Occurs check, finite terms: termination and exactness of unify_with_occurs_check. *)
Require Import ZArith Lia List Bool Floats.SpecFloat.
Require Import Verif.Term_Model Verif.Term_Proofs Verif.Heap_Model Verif.Heap_Proofs.
Require Import Verif.Unify_Model Verif.Unify_Spec Verif.Unify_Proofs Verif.Unify_Proofs2.
Import ListNotations.
Open Scope Z_scope.

(** ** occurrence of a variable in a term *)
Fixpoint tocc (a : addr) (t : term) : bool :=
  match t with
  | TVar b => b =? a
  | TCmp _ ts => existsb (tocc a) ts
  | _ => false
  end.

Definition sub1 (a : addr) (tw t : term) : term :=
  inst (fun b => if b =? a then tw else TVar b) t.

Lemma derefs_nonref m w : (forall a, w <> REF a) -> exists F, forall f, (F <= f)%nat -> deref f m w = Ret w.
Proof. intros N. apply derefs_fun. now constructor. Qed.

(** the occurs check terminates and is exact *)
Lemma Check_exact_both L m a (W : wf L m) :
  (forall w t, den m w t -> wf_word L m w ->
    exists F, forall fuel, (F <= fuel)%nat -> Check_If_Var_Occurs fuel m a w = Ret (tocc a t)) /\
  (forall b ts, den_args m b ts -> ts <> [] ->
    exists F, forall fuel, (F <= fuel)%nat ->
      occurs_args (Check_If_Var_Occurs fuel m a) (length ts) m b = Ret (existsb (tocc a) ts)).
Proof.
  apply (den_both m
    (fun w t _ => wf_word L m w ->
      exists F, forall fuel, (F <= fuel)%nat -> Check_If_Var_Occurs fuel m a w = Ret (tocc a t))
    (fun b ts _ => ts <> [] -> exists F, forall fuel, (F <= fuel)%nat ->
      occurs_args (Check_If_Var_Occurs fuel m a) (length ts) m b = Ret (existsb (tocc a) ts))).
  - intros b E Wb. destruct (derefs_fun m (REF b) (REF b) (drf_self m b E)) as [F HF].
    exists (S F). intros [|f] Lf; [lia|]. cbn [Check_If_Var_Occurs]. rewrite HF by lia. reflexivity.
  - intros b w t E N D IH Wb. destruct (IH (wf_cell _ _ W _ _ E)) as [F H].
    destruct (den_derefs _ _ _ D) as (w' & Dw & _).
    destruct (derefs_fun _ _ _ Dw) as [F1 H1].
    destruct (derefs_fun _ _ _ (drf_step m b w w' E N Dw)) as [F2 H2].
    exists (S (F + F1 + F2)). intros [|f] Lf; [lia|]. specialize (H (S f) ltac:(lia)).
    cbn [Check_If_Var_Occurs] in *. rewrite H1 in H by lia. rewrite H2 by lia. exact H.
  - intros b Wb. exists 2%nat. intros [|[|f]] Lf; try lia. reflexivity.
  - intros b d _ Wb. exists 2%nat. intros [|[|f]] Lf; try lia. reflexivity.
  - intros n Wb. exists 2%nat. intros [|[|f]] Lf; try lia. reflexivity.
  - intros n Wb. exists 2%nat. intros [|[|f]] Lf; try lia. reflexivity.
  - intros b t1 t2 D IH Wb. destruct (IH ltac:(discriminate)) as [F H].
    exists (S (S F)). intros [|[|f]] Lf; try lia. specialize (H (S f) ltac:(lia)). exact H.
  - intros b f ts E D IH (g & k & E' & Nk & _). destruct ts as [|t ts].
    + exfalso. rewrite E in E'. inversion E'; subst. cbn in Nk. lia.
    + destruct (IH ltac:(discriminate)) as [F H].
      exists (S (S F)). intros [|[|f']] Lf; try lia. specialize (H (S f') ltac:(lia)).
      cbn [Check_If_Var_Occurs deref bind]. unfold rd_func. rewrite E. cbn [bind snd]. exact H.
  - congruence.
  - intros b w t ts E D IHw Ds IH _. destruct (IHw (wf_cell _ _ W _ _ E)) as [F H].
    destruct ts as [|t' ts].
    + exists F. intros f Lf. cbn [occurs_args length existsb]. unfold rd_word. rewrite E. cbn [bind].
      rewrite H by lia. now rewrite orb_false_r.
    + destruct (IH ltac:(discriminate)) as [F2 H2]. exists (F + F2)%nat. intros f Lf.
      change (length (t :: t' :: ts)) with (S (S (length ts))).
      specialize (H2 f ltac:(lia)). change (length (t' :: ts)) with (S (length ts)) in H2.
      cbn [occurs_args] in *. unfold rd_word at 1. rewrite E. cbn [bind].
      rewrite H by lia. cbn [bind]. cbn [existsb] in *. destruct (tocc a t); cbn [orb]; auto.
Qed.

Lemma Check_exact L m a w t fuel b : wf L m -> wf_word L m w -> den m w t ->
  Check_If_Var_Occurs fuel m a w = Ret b -> b = tocc a t.
Proof.
  intros W Ww D E. destruct (proj1 (Check_exact_both L m a W) w t D Ww) as [F H].
  destruct (Check_le fuel (Nat.max fuel F) m a w ltac:(lia)) as [Q|Q]; [congruence|].
  rewrite (H (Nat.max fuel F)) in Q by lia. congruence.
Qed.

(** a term built in the global stack has no variable of the local stack *)
Lemma no_local_both L m (W : wf L m) :
  (forall w t, den m w t -> wf_word L m w -> (forall b, w = REF b -> b < L) ->
     forall a, L <= a -> tocc a t = false) /\
  (forall b ts, den_args m b ts -> b + Z.of_nat (length ts) <= L ->
     forall a, L <= a -> existsb (tocc a) ts = false).
Proof.
  apply (den_both m
    (fun w t _ => wf_word L m w -> (forall b, w = REF b -> b < L) -> forall a, L <= a -> tocc a t = false)
    (fun b ts _ => b + Z.of_nat (length ts) <= L -> forall a, L <= a -> existsb (tocc a) ts = false)).
  - intros b E Wb Lb a La. specialize (Lb b eq_refl). cbn. apply Z.eqb_neq. lia.
  - intros b w t E N D IH Wb Lb a La. apply IH; auto; [apply (wf_cell _ _ W _ _ E)|].
    intros x ->. specialize (Lb b eq_refl). destruct (wf_ref _ _ W _ _ E); lia.
  - reflexivity.
  - reflexivity.
  - reflexivity.
  - reflexivity.
  - intros b t1 t2 D IH [Lb _] _ a La. apply (IH ltac:(cbn; lia) a La).
  - intros b f ts E D IH (g & k & E' & Nk & _ & Lb & _) _ a La.
    rewrite E in E'. inversion E'; subst. apply (IH ltac:(lia) a La).
  - reflexivity.
  - intros b w t ts E D IHw Ds IH Lb a La. cbn [length] in Lb. cbn [existsb].
    rewrite (IH ltac:(lia) a La), IHw; auto.
    + apply (wf_cell _ _ W _ _ E).
    + intros x ->. destruct (wf_ref _ _ W _ _ E); lia.
Qed.

(** ** binding keeps finite terms finite *)
Lemma den_frame_both m m' a (H : forall x, x <> a -> m' x = m x) (Ha : m a = Some (Word (REF a))) :
  (forall w t, den m w t -> tocc a t = false -> den m' w t) /\
  (forall b ts, den_args m b ts -> existsb (tocc a) ts = false ->
     (forall i, (i < length ts)%nat -> b + Z.of_nat i <> a) -> den_args m' b ts).
Proof.
  assert (NV : forall w t, m a = Some (Word w) -> den m w t -> tocc a t = false -> False).
  { intros w t E D. rewrite Ha in E. inversion E; subst w. inversion D; subst.
    - cbn. rewrite Z.eqb_refl. discriminate.
    - congruence. }
  apply (den_both m (fun w t _ => tocc a t = false -> den m' w t)
    (fun b ts _ => existsb (tocc a) ts = false ->
     (forall i, (i < length ts)%nat -> b + Z.of_nat i <> a) -> den_args m' b ts)).
  - intros b E O. cbn in O. apply Z.eqb_neq in O. constructor. now rewrite H.
  - intros b w t E N D IH O. destruct (Z.eq_dec b a) as [->|Nb]; [exfalso; eauto|].
    eapply den_ref; [rewrite H by auto; eauto|auto|auto].
  - constructor.
  - intros b d E _. constructor. rewrite H; auto. congruence.
  - constructor.
  - constructor.
  - intros b t1 t2 D IH O. constructor. apply IH; auto.
    intros i Hi. inversion D as [|? w1 ? ? E1 D1 D2]; subst. inversion D2 as [|? w2 ? ? E2 D3 _]; subst.
    cbn [tocc existsb] in O. apply orb_false_iff in O as [O1 O2]. apply orb_false_iff in O2 as [O2 _].
    intros Q. cbn in Hi. destruct i as [|[|i]]; [| |lia].
    + cbn [Z.of_nat] in Q. rewrite Z.add_0_r in Q. subst b. eauto.
    + cbn [Z.of_nat] in Q. eapply (NV w2 t2); eauto. rewrite <- E2. f_equal. lia.
  - intros b f ts E D IH O. constructor; [rewrite H; auto; congruence|]. apply IH; auto.
    intros i Hi Q. clear IH E. revert i Hi Q O. remember (b + 1) as b1. clear Heqb1 b.
    induction D as [|b w t ts E D Ds IH]; intros i Hi Q O; [cbn in Hi; lia|].
    cbn [tocc existsb] in O. apply orb_false_iff in O as [O1 O2]. destruct i as [|i].
    + cbn [Z.of_nat] in Q. rewrite Z.add_0_r in Q. subst b. eauto.
    + apply (IH i); [cbn in Hi; lia|lia|exact O2].
  - intros; constructor.
  - intros b w t ts E D IHw Ds IH O Nb. cbn [existsb] in O. apply orb_false_iff in O as [O1 O2].
    econstructor; [rewrite H; [eauto|]|auto|apply IH; auto].
    + specialize (Nb 0%nat ltac:(cbn; lia)). cbn [Z.of_nat] in Nb. lia.
    + intros i Hi. specialize (Nb (S i) ltac:(cbn; lia)). lia.
Qed.

Lemma den_bind_both m a w tw (Ha : m a = Some (Word (REF a))) (Nw : w <> REF a)
  (Dw : den m w tw) (O : tocc a tw = false) :
  (forall x t, den m x t -> den (store m a (Word w)) x (sub1 a tw t)) /\
  (forall b ts, den_args m b ts -> den_args (store m a (Word w)) b (map (sub1 a tw) ts)).
Proof.
  set (m' := store m a (Word w)).
  assert (Ho : forall x, x <> a -> m' x = m x) by (intros; now apply store_other).
  assert (Dw' : den m' w tw) by (apply (proj1 (den_frame_both m m' a Ho Ha)); auto).
  assert (Da : den m' (REF a) tw).
  { eapply den_ref; [apply store_same|auto|auto]. }
  apply (den_both m (fun x t _ => den m' x (sub1 a tw t))
    (fun b ts _ => den_args m' b (map (sub1 a tw) ts))).
  - intros b E. cbn. destruct (Z.eqb_spec b a) as [->|N]; [exact Da|]. constructor. now rewrite Ho.
  - intros b x t E N D IH. destruct (Z.eq_dec b a) as [->|Nb]; [congruence|].
    eapply den_ref; [rewrite Ho by auto; eauto|auto|auto].
  - constructor.
  - intros b d E. constructor. rewrite Ho; auto. congruence.
  - constructor.
  - constructor.
  - intros b t1 t2 D IH. constructor. exact IH.
  - intros b f ts E D IH. constructor; auto. rewrite map_length. rewrite Ho; auto. congruence.
  - constructor.
  - intros b x t ts E D IHx Ds IH. cbn [map]. destruct (Z.eq_dec b a) as [->|Nb].
    + rewrite Ha in E. inversion E; subst x. inversion D; subst; [|congruence].
      econstructor; [apply store_same| |exact IH]. cbn. rewrite Z.eqb_refl. exact Dw'.
    + econstructor; [rewrite Ho by auto; eauto|auto|exact IH].
Qed.

Lemma copy_den L m w t : wf_word L m w -> den m w t -> den m (Do_Copy_Of_Word w) t.
Proof.
  intros Ww D. destruct w; auto. cbn. destruct Ww as [E _]. eapply den_ref; eauto. discriminate.
Qed.

Lemma bind_acyclic L m a w tw : wf L m -> m a = Some (Word (REF a)) -> wf_word L m w ->
  w <> REF a -> den m w tw -> tocc a tw = false -> acyclic L m ->
  acyclic L (store m a (Word (Do_Copy_Of_Word w))).
Proof.
  intros W Ha Ww Nw Dw O A x Wx.
  assert (Nw' : Do_Copy_Of_Word w <> REF a).
  { destruct w; cbn; auto; try discriminate. destruct Ww as [E _]. intros Q. inversion Q; subst. congruence. }
  assert (Wx' : wf_word L m x).
  { set (m' := store m a (Word (Do_Copy_Of_Word w))) in *.
    assert (Ho : forall y, y <> a -> m' y = m y) by (intros; now apply store_other).
    assert (Hc : forall y c, m' y = Some c -> (forall z, c <> Word z) -> m y = Some c).
    { intros y c E Nc. destruct (Z.eq_dec y a) as [->|]; [|now rewrite <- Ho].
      unfold m' in E. rewrite store_same in E. inversion E; subst. exfalso; eapply Nc; eauto. }
    assert (Hw : forall y z, m' y = Some (Word z) -> exists z', m y = Some (Word z')).
    { intros y z E. destruct (Z.eq_dec y a) as [->|N]; [eauto|]. rewrite Ho in E by auto. eauto. }
    assert (Hws : forall y n, words_at m' y n -> words_at m y n).
    { intros y n H i Hi. destruct (H i Hi) as [z E]. eauto. }
    destruct x as [b|b|b|b|b|b|b]; cbn [wf_word] in *; auto.
    - destruct Wx as [z E]. eauto.
    - destruct Wx. auto.
    - destruct Wx as (f & n & E & N1 & N2 & N3 & N4). exists f, n. repeat split; auto.
      apply Hc; [auto|discriminate].
    - destruct Wx as (d & E & N). exists d. split; auto. apply Hc; [auto|discriminate].
    - destruct Wx as [E Lb]. split; auto. destruct (Z.eq_dec b a) as [->|N]; [|now rewrite <- Ho].
      unfold m' in E. rewrite store_same in E. destruct w; cbn in E; discriminate. }
  destruct (A x Wx') as [tx Dx]. exists (sub1 a tw tx).
  apply (proj1 (den_bind_both m a (Do_Copy_Of_Word w) tw Ha Nw' (copy_den L m w tw Ww Dw) O)); auto.
Qed.

Lemma var_bind_acyclic L m a b : wf L m -> m a = Some (Word (REF a)) -> m b = Some (Word (REF b)) ->
  a <> b -> acyclic L m -> acyclic L (store m a (Word (REF b))).
Proof.
  intros W Ea Eb N A. apply (bind_acyclic L m a (REF b) (TVar b)); auto.
  - cbn. eauto.
  - intros Q; inversion Q; auto.
  - now constructor.
  - cbn. apply Z.eqb_neq. auto.
Qed.

Lemma unify_var_acyclic c fuel s a w r s' : wf (LSSA c) (mm s) -> acyclic (LSSA c) (mm s) ->
  mm s a = Some (Word (REF a)) -> wf_word (LSSA c) (mm s) w -> (forall b, w <> REF b) ->
  unify_var true fuel c s a w = Ret (r, s') -> acyclic (LSSA c) (mm s').
Proof.
  intros W A Ea Ww Nw. unfold unify_var. cbn [andb].
  destruct (A w Ww) as [tw Dw].
  destruct (if negb (Is_A_Local_Adr c a) then _ else _) as [o| |] eqn:O; cbn [bind]; try discriminate.
  destruct o; intros X; inversion X; subst; auto.
  cbn [Bind_UV mm]. eapply bind_acyclic; eauto.
  unfold Is_A_Local_Adr in O. destruct (Z.leb_spec (LSSA c) a); cbn [negb] in O.
  - eapply (proj1 (no_local_both _ _ W)); eauto. intros b ->. exfalso; eapply Nw; eauto.
  - symmetry. eapply Check_exact; eauto.
Qed.

Lemma unify_args_acyclic c uni
  (H : forall s u v r s', wf (LSSA c) (mm s) -> acyclic (LSSA c) (mm s) -> wf_word (LSSA c) (mm s) u ->
       wf_word (LSSA c) (mm s) v -> uni s u v = Ret (r, s') -> acyclic (LSSA c) (mm s'))
  (H' : forall s u v r s', wf (LSSA c) (mm s) -> wf_word (LSSA c) (mm s) u ->
       wf_word (LSSA c) (mm s) v -> uni s u v = Ret (r, s') -> sound_res c s u v r s') :
  forall n s a b r s', wf (LSSA c) (mm s) -> acyclic (LSSA c) (mm s) ->
  words_at (mm s) a n -> words_at (mm s) b n ->
  unify_args uni n s a b = Ret (r, s') -> acyclic (LSSA c) (mm s').
Proof.
  induction n as [|n IH]; intros s a b r s' W A Wa Wb; cbn [unify_args]; [discriminate|].
  destruct (Wa 0%nat ltac:(lia)) as [u Eu]. destruct (Wb 0%nat ltac:(lia)) as [v Ev].
  rewrite Z.add_0_r in Eu, Ev. unfold rd_word. rewrite Eu, Ev. cbn [bind].
  assert (Wu := wf_cell _ _ W _ _ Eu). assert (Wv := wf_cell _ _ W _ _ Ev).
  destruct n as [|n]; [intros E; exact (H _ _ _ _ _ W A Wu Wv E)|].
  destruct (uni s u v) as [[r1 s1]| |] eqn:E1; cbn [bind]; try discriminate.
  destruct (H' _ _ _ _ _ W Wu Wv E1) as [G _].
  assert (A1 := H _ _ _ _ _ W A Wu Wv E1).
  destruct r1; intros E; [|inversion E; subst; auto..].
  apply (IH s1 (a + 1) (b + 1) r s'); auto.
  - apply G.
  - intros i Hi. destruct (Wa (S i) ltac:(lia)) as [w Ew].
    replace (a + 1 + Z.of_nat i) with (a + Z.of_nat (S i)) by lia. eapply ext_word; [apply G|eauto].
  - intros i Hi. destruct (Wb (S i) ltac:(lia)) as [w Ew].
    replace (b + 1 + Z.of_nat i) with (b + Z.of_nat (S i)) by lia. eapply ext_word; [apply G|eauto].
Qed.

Lemma Unify_acyclic c fuel : forall s u v r s', wf (LSSA c) (mm s) -> acyclic (LSSA c) (mm s) ->
  wf_word (LSSA c) (mm s) u -> wf_word (LSSA c) (mm s) v ->
  Unify true fuel c s u v = Ret (r, s') -> acyclic (LSSA c) (mm s').
Proof.
  induction fuel as [|fuel IH]; intros s u v r s' W A Wu Wv; [discriminate|]. cbn [Unify].
  destruct (deref_ok (LSSA c) (mm s) u fuel W Wu) as [->|(u' & -> & Du & Wu' & Ru)]; [discriminate|].
  cbn [bind].
  destruct (deref_ok (LSSA c) (mm s) v fuel W Wv) as [->|(v' & -> & Dv & Wv' & Rv)]; [discriminate|].
  cbn [bind].
  assert (UA : forall n a b, words_at (mm s) a n -> words_at (mm s) b n ->
    unify_args (Unify true fuel c) n s a b = Ret (r, s') -> acyclic (LSSA c) (mm s')).
  { intros n a b Wa Wb E. eapply (unify_args_acyclic c (Unify true fuel c)); [exact IH| |exact W|exact A|exact Wa|exact Wb|exact E].
    intros s0 u0 v0 r0 s0' A1 A2 A3 A5. eapply Unify_sound; eauto. }
  destruct Ru as [(a & -> & Ea)|Nu].
  - destruct Rv as [(b & -> & Eb)|Nv].
    + destruct (Z.ltb_spec b a); [|destruct (Z.ltb_spec a b)]; intros E; inversion E; subst; auto;
        cbn [Bind_UV mm]; apply var_bind_acyclic; auto; lia.
    + destruct v' as [b|b|b|b|b|b|b]; try (intros E; exact (unify_var_acyclic c fuel s _ _ r s' W A Ea Wv' Nv E)).
      exfalso; eapply Nv; eauto.
  - destruct Rv as [(b & -> & Eb)|Nv].
    + destruct u' as [a|a|a|a|a|a|a]; try (intros E; exact (unify_var_acyclic c fuel s _ _ r s' W A Eb Wu' Nu E)).
      exfalso; eapply Nu; eauto.
    + assert (Q : unify_nonvar (Unify true fuel c) s u' v' = Ret (r, s') -> acyclic (LSSA c) (mm s')).
      { unfold unify_nonvar. destruct (word_eqb u' v'); [intros E; inversion E; subst; auto|].
        destruct v' as [b|b|b|j|b|b|k]; destruct u' as [a|a|a|i|a|a|n];
          try (intros E; inversion E; subst; auto; fail).
        - intros E. eapply UA; [apply Wu'|apply Wv'|exact E].
        - destruct Wu' as (f & n & Ea & Na & _ & _ & Wa), Wv' as (g & k & Eb & Nb & _ & _ & Wb).
          unfold rd_func. rewrite Ea, Eb. cbn [bind fst snd].
          destruct (Z.eqb_spec f g); cbn [andb]; [|intros E; inversion E; subst; auto].
          destruct (Nat.eqb_spec n k); [|intros E; inversion E; subst; auto]. subst.
          intros E. exact (UA _ _ _ Wa Wb E).
        - unfold rd_dbl. destruct (mm s a) as [[| |]|]; cbn [bind]; try discriminate.
          destruct (mm s b) as [[| |]|]; cbn [bind]; try discriminate. intros E; inversion E; subst; auto. }
      destruct u'; try (destruct v'; auto; exfalso; eapply Nv; eauto; fail).
      exfalso; eapply Nu; eauto.
Qed.

(** ** termination *)
Definition unb (m : mem) (a : addr) : bool :=
  match m a with Some (Word (REF b)) => b =? a | _ => false end.
Lemma unb_iff m a : unb m a = true <-> m a = Some (Word (REF a)).
Proof.
  unfold unb. destruct (m a) as [[[b| | | | | |]| |]|]; split; intros H; try discriminate.
  - apply Z.eqb_eq in H. congruence.
  - inversion H. apply Z.eqb_refl.
Qed.
Definition nunb (D : list addr) (m : mem) : nat := length (filter (unb m) D).
Definition covers (D : list addr) (m : mem) : Prop := forall a, m a = Some (Word (REF a)) -> In a D.

Lemma ext_unb m m' a : ext m m' -> unb m' a = true -> unb m a = true.
Proof. intros X. rewrite !unb_iff. intros E. destruct (X a) as [Q|[Q _]]; congruence. Qed.

Lemma ext_nunb D m m' : ext m m' -> (nunb D m' <= nunb D m)%nat /\
  (nunb D m' = nunb D m -> forall a, In a D -> unb m a = unb m' a).
Proof.
  intros X. unfold nunb. induction D as [|x D [IH1 IH2]]; [cbn; split; [lia|intros _ a []]|]. cbn [filter].
  destruct (unb m' x) eqn:E'.
  - rewrite (ext_unb _ _ _ X E'). cbn [length]. split; [lia|]. intros Q a [<-|I].
    + now rewrite E', (ext_unb _ _ _ X E').
    + apply IH2; [lia|auto].
  - destruct (unb m x) eqn:E; cbn [length]; (split; [lia|]).
    + intros Q. lia.
    + intros Q a [<-|I]; [congruence|auto].
Qed.

Lemma ext_progress D m m' : covers D m -> ext m m' ->
  covers D m' /\ ((nunb D m' < nunb D m)%nat \/ forall a, m' a = m a).
Proof.
  intros C X. split.
  { intros a E. apply C. apply unb_iff. apply (ext_unb m m' a X). now apply unb_iff. }
  destruct (ext_nunb D m m' X) as [Le Eq].
  destruct (Nat.eq_dec (nunb D m') (nunb D m)) as [Q|Q]; [right|left; lia].
  intros a. destruct (X a) as [E|[E [w E']]]; auto.
  specialize (Eq Q a (C a E)). rewrite (proj2 (unb_iff m a) E) in Eq. symmetry in Eq.
  apply unb_iff in Eq. congruence.
Qed.

Lemma den_ext_both m m' (H : forall a, m' a = m a) :
  (forall w t, den m w t -> den m' w t) /\ (forall b ts, den_args m b ts -> den_args m' b ts).
Proof.
  apply (den_both m (fun w t _ => den m' w t) (fun b ts _ => den_args m' b ts));
    intros; econstructor; eauto; rewrite H; eauto.
Qed.

Fixpoint tsz (t : term) : nat :=
  match t with TCmp _ ts => S (list_sum (map tsz ts)) | _ => 1%nat end.

Section Term.
Variable c : cfg.
Variable D : list addr.
Let Lo := LSSA c.

Definition ok (s : st) : Prop := wf Lo (mm s) /\ acyclic Lo (mm s) /\ covers D (mm s).

Lemma args_terminate k N
  (IHk : forall s u v, ok s -> (nunb D (mm s) < k)%nat -> wf_word Lo (mm s) u -> wf_word Lo (mm s) v ->
     terminates (fun fuel => Unify true fuel c s u v))
  (IHN : forall s u v t, ok s -> (nunb D (mm s) <= k)%nat -> wf_word Lo (mm s) u -> wf_word Lo (mm s) v ->
     den (mm s) u t -> (tsz t <= N)%nat -> terminates (fun fuel => Unify true fuel c s u v)) :
  forall ts s a b, ok s -> (nunb D (mm s) <= k)%nat -> ts <> [] ->
  words_at (mm s) a (length ts) -> words_at (mm s) b (length ts) ->
  ((nunb D (mm s) < k)%nat \/ (den_args (mm s) a ts /\ (list_sum (map tsz ts) <= N)%nat)) ->
  terminates (fun fuel => unify_args (Unify true fuel c) (length ts) s a b).
Proof.
  induction ts as [|t ts IH]; intros s a b K Hk Nn Wa Wb Hd; [congruence|]. clear Nn.
  cbn [length] in Wa, Wb |- *.
  destruct (Wa 0%nat ltac:(lia)) as [u Eu]. destruct (Wb 0%nat ltac:(lia)) as [v Ev].
  rewrite Z.add_0_r in Eu, Ev. destruct K as (W & A & C).
  assert (Wu := wf_cell _ _ W _ _ Eu). assert (Wv := wf_cell _ _ W _ _ Ev).
  assert (T1 : terminates (fun fuel => Unify true fuel c s u v)).
  { destruct Hd as [Hd|[Hd Sz]]; [apply IHk; auto; repeat split; auto; apply W|].
    inversion Hd as [|? w ? ? E1 D1 D2]; subst. rewrite Eu in E1. inversion E1; subst w.
    cbn [map list_sum fold_right] in Sz. fold (list_sum (map tsz ts)) in Sz.
    apply (IHN s u v t); auto; [repeat split; auto; apply W|lia]. }
  destruct T1 as (F & [r1 s1] & HF).
  assert (Step : forall f, unify_args (Unify true f c) (S (length ts)) s a b =
    match length ts with O => Unify true f c s u v | S _ => do r <- Unify true f c s u v;
      match r with (USucc, s') => unify_args (Unify true f c) (length ts) s' (a + 1) (b + 1) | r => Ret r end end).
  { intros f. cbn [unify_args]. unfold rd_word. rewrite Eu, Ev. reflexivity. }
  destruct ts as [|t' ts].
  { exists F, (r1, s1). intros f Lf. rewrite Step. cbn [length]. auto. }
  assert (E1 := HF F (Nat.le_refl _)).
  assert (GS := Unify_sound true c F s u v r1 s1 W Wu Wv E1). destruct GS as [G _].
  assert (A1 := Unify_acyclic c F s u v r1 s1 W A Wu Wv E1).
  destruct (ext_progress D (mm s) (mm s1) C ltac:(apply G)) as [C1 P].
  destruct r1.
  2,3: eexists F, _; intros f Lf; rewrite Step, HF by lia; cbn [length]; reflexivity.
  destruct (IH s1 (a + 1) (b + 1)) as (F2 & x & HF2).
  - repeat split; auto; apply G.
  - destruct (ext_nunb D (mm s) (mm s1) ltac:(apply G)). lia.
  - discriminate.
  - intros i Hi. destruct (Wa (S i) ltac:(lia)) as [w Ew].
    replace (a + 1 + Z.of_nat i) with (a + Z.of_nat (S i)) by lia. eapply ext_word; [apply G|eauto].
  - intros i Hi. destruct (Wb (S i) ltac:(lia)) as [w Ew].
    replace (b + 1 + Z.of_nat i) with (b + Z.of_nat (S i)) by lia. eapply ext_word; [apply G|eauto].
  - destruct P as [P|P]; [left; lia|]. destruct Hd as [Hd|[Hd Sz]].
    + left. destruct (ext_nunb D (mm s) (mm s1) ltac:(apply G)). lia.
    + right. inversion Hd as [|? w ? ? E2 D1 D2]; subst. split.
      * apply (proj2 (den_ext_both (mm s) (mm s1) P)); auto.
      * cbn [map list_sum fold_right] in *. lia.
  - exists (F + F2)%nat, x. intros f Lf. rewrite Step. cbn [length]. rewrite HF by lia. cbn [bind].
    apply HF2. lia.
Qed.

Lemma Unify_oc_terminates_n k : forall N s u v t, ok s -> (nunb D (mm s) <= k)%nat ->
  wf_word Lo (mm s) u -> wf_word Lo (mm s) v -> den (mm s) u t -> (tsz t <= N)%nat ->
  terminates (fun fuel => Unify true fuel c s u v).
Proof.
  induction k as [k IHk] using lt_wf_ind. induction N as [|N IHN]; intros s u v t K Hk Wu Wv Dt Sz.
  { destruct t; cbn in Sz; lia. }
  destruct K as (W & A & C).
  destruct (derefs_total _ _ W u Wu) as [u' Du]; destruct (derefs_total _ _ W v Wv) as [v' Dv].
  destruct (derefs_fun _ _ _ Du) as [Fu Hu]; destruct (derefs_fun _ _ _ Dv) as [Fv Hv].
  pose proof (derefs_wf _ _ _ _ W Du Wu) as Wu'; pose proof (derefs_wf _ _ _ _ W Dv Wv) as Wv'.
  assert (Red : terminates (fun fuel => match u' with
      | REF a =>
        match v' with
        | REF b =>
          if b <? a then Ret (USucc, Bind_UV c s a (REF b))
          else if a <? b then Ret (USucc, Bind_UV c s b (REF a))
          else Ret (USucc, s)
        | _ => unify_var true fuel c s a v'
        end
      | _ =>
        match v' with
        | REF b => unify_var true fuel c s b u'
        | _ => unify_nonvar (Unify true fuel c) s u' v'
        end
      end) -> terminates (fun fuel => Unify true fuel c s u v)).
  { intros (F & x & HF); exists (S (F + Fu + Fv)), x; intros [|f] Lf; [lia|];
          cbn [Unify]; rewrite Hu, Hv by lia; cbn [bind]; rewrite <- (HF f) by lia; reflexivity. }
  apply Red; clear Red Hu Hv Fu Fv.
  assert (BV : forall a w, wf_word Lo (mm s) w -> terminates (fun fuel => unify_var true fuel c s a w)).
  { intros a w Ww. unfold unify_var. cbn [andb]. destruct (negb (Is_A_Local_Adr c a)).
    - destruct (A w Ww) as [tw Dw].
      destruct (proj1 (Check_exact_both Lo (mm s) a W) w tw Dw Ww) as [F HF].
      exists F. destruct (tocc a tw); eexists; intros f Lf; rewrite HF by lia; reflexivity.
    - eexists O, _. intros. reflexivity. }
  assert (IHk' : forall s u v, ok s -> (nunb D (mm s) < k)%nat -> wf_word Lo (mm s) u -> wf_word Lo (mm s) v ->
     terminates (fun fuel => Unify true fuel c s u v)).
  { intros s0 u0 v0 K0 L0 W1 W2. destruct K0 as (W0 & A0 & C0). destruct (A0 u0 W1) as [t0 D0].
    eapply (IHk (nunb D (mm s0)) L0 (tsz t0) s0 u0 v0 t0); auto. repeat split; auto; apply W0. }
  apply (derefs_den _ _ _ Du) in Dt.
  destruct u' as [a|a|a|i|a|a|n].
  1: destruct v'; [destruct (_ <? _); [|destruct (_ <? _)]|..];
     first [apply BV; exact Wv' | eexists O, _; intros; reflexivity].
  all: destruct v' as [b|b|b|j|b|b|k']; try (apply BV; exact Wu');
    unfold unify_nonvar; cbn [word_eqb];
    try (destruct (a =? b)); try (destruct (i =? j)); try (destruct (n =? k'));
    try (eexists O, _; intros; reflexivity).
  - inversion Dt as [| | | | | |? t1 t2 Da|]; subst.
    apply (args_terminate k N IHk' IHN [t1; t2]); auto.
    + repeat split; auto; apply W.
    + discriminate.
    + apply Wu'.
    + apply Wv'.
    + right. split; auto. cbn in Sz |- *. lia.
  - destruct Wu' as (f & n & Ea & Na & _ & _ & Wa), Wv' as (g & m & Eb & Nb & _ & _ & Wb).
    unfold rd_func. rewrite Ea, Eb. cbn [bind fst snd].
    destruct (Z.eqb_spec f g) as [->|]; cbn [andb]; [|eexists O, _; intros; reflexivity].
    destruct (Nat.eqb_spec n m) as [->|]; cbn [andb]; [|eexists O, _; intros; reflexivity].
    inversion Dt as [| | | | | | |? f ts Ef Da]; subst. rewrite Ea in Ef. inversion Ef; subst.
    apply (args_terminate k N IHk' IHN ts); auto.
    + repeat split; auto; apply W.
    + intros ->. cbn in Na. lia.
    + right. split; auto. cbn in Sz |- *. lia.
  - destruct Wu' as (d1 & E1 & _), Wv' as (d2 & E2 & _). unfold rd_dbl. rewrite E1, E2.
    eexists O, _; intros; reflexivity.
Qed.

Lemma Unify_oc_terminates s u v : wf Lo (mm s) -> acyclic Lo (mm s) -> covers D (mm s) ->
  wf_word Lo (mm s) u -> wf_word Lo (mm s) v -> terminates (fun fuel => Unify true fuel c s u v).
Proof.
  intros W A C Wu Wv. destruct (A u Wu) as [t Dt].
  eapply (Unify_oc_terminates_n (nunb D (mm s)) (tsz t)); eauto. repeat split; auto; apply W.
Qed.
End Term.

(** ** finite terms as trees *)
Definition root (t : term) : label :=
  match t with
  | TVar a => LVar a
  | TFdv a => LFdv a
  | TFlt d => LFlt (norm_flt d)
  | TInt n => LInt n
  | TAtm i => LAtm i
  | TCmp f ts => LFun f (length ts)
  end.
Fixpoint tat (t : term) (p : path) : option label :=
  match p with
  | [] => Some (root t)
  | i :: p =>
    match t with
    | TCmp _ ts => match nth_error ts i with Some t' => tat t' p | None => None end
    | _ => None
    end
  end.
Definition tree_of (t : term) : tree := fun p l => tat t p = Some l.

Lemma norm_flt_idem d : norm_flt (norm_flt d) = norm_flt d.
Proof. now destruct d. Qed.

Lemma tat_norm p : forall t, tat (norm t) p = tat t p.
Proof.
  induction p as [|i p IH]; intros t.
  - destruct t; cbn; auto; [now rewrite norm_flt_idem|now rewrite map_length].
  - destruct t; cbn; auto. rewrite nth_error_map. destruct (nth_error args i); cbn; auto.
Qed.

Lemma tat_inj t1 : forall t2, (forall p, tat t1 p = tat t2 p) -> norm t1 = norm t2.
Proof.
  induction t1 as [a|a|d|n|i|f us IH] using term_ind'; intros t2 H;
    pose proof (H []) as R; destruct t2; cbn in R; inversion R; subst; cbn [norm]; auto; try congruence.
  f_equal. assert (K : forall i, nth_error (map norm us) i = nth_error (map norm args) i).
  { intros i. rewrite !nth_error_map. destruct (nth_error us i) as [u|] eqn:E.
    - destruct (nth_error args i) as [v|] eqn:E'.
      + cbn. f_equal. rewrite Forall_forall in IH. apply IH; [eapply nth_error_In; eauto|].
        intros p. specialize (H (i :: p)). cbn in H. now rewrite E, E' in H.
      + apply nth_error_None in E'. assert (i < length us)%nat by (apply nth_error_Some; congruence). lia.
    - destruct (nth_error args i) as [v|] eqn:E'; auto. apply nth_error_None in E.
      assert (i < length args)%nat by (apply nth_error_Some; congruence). lia. }
  clear - K. revert args K. induction us as [|u us IH]; intros [|v vs] K; auto.
  - specialize (K 0%nat). discriminate.
  - specialize (K 0%nat). discriminate.
  - cbn. f_equal; [specialize (K 0%nat); cbn in K; congruence|]. apply IH. intros i. apply (K (S i)).
Qed.

Lemma tat_finite t : finite_tree (tree_of t).
Proof.
  split; [exists (root t); reflexivity|]. unfold tree_of.
  induction t as [a|a|d|n|i|f us IH] using term_ind';
    try (exists 0%nat; intros [|j p] l H; cbn in *; [lia|discriminate]).
  assert (Q : exists N, forall t, In t us -> forall p l, tat t p = Some l -> (length p <= N)%nat).
  { induction IH as [|u us [N HN] _ [N' HN']]; [exists 0%nat; intros t []|].
    exists (N + N')%nat. intros t [<-|I] p l E; [apply HN in E; lia|apply (HN' t I) in E; lia]. }
  destruct Q as [N HN]. exists (S N). intros [|j p] l H; cbn in *; [lia|].
  destruct (nth_error us j) as [t|] eqn:E; [|discriminate]. apply nth_error_In in E.
  specialize (HN t E p l H). lia.
Qed.

Lemma lab_den_both m sg :
  (forall w t, den m w t ->
     same_tree (lab m (fun a => tree_of (sg a)) w) (tree_of (inst sg t))) /\
  (forall b ts, den_args m b ts -> forall i, 
     match nth_error ts i with
     | Some t => exists w, m (b + Z.of_nat i) = Some (Word w) /\
        same_tree (lab m (fun a => tree_of (sg a)) w) (tree_of (inst sg t))
     | None => True
     end).
Proof.
  set (nu := fun a => tree_of (sg a)).
  apply (den_both m (fun w t _ => same_tree (lab m nu w) (tree_of (inst sg t)))
   (fun b ts _ => forall i, 
     match nth_error ts i with
     | Some t => exists w, m (b + Z.of_nat i) = Some (Word w) /\
        same_tree (lab m nu w) (tree_of (inst sg t))
     | None => True
     end)).
  - intros a E. cbn [inst]. apply (lab_unbound m nu a E).
  - intros a w t E N D IH. eapply same_tree_trans; [apply (lab_cell m nu a w E)|exact IH].
  - intros a p l. unfold tree_of. split.
    + intros H; inversion H; subst; reflexivity.
    + destruct p; cbn; intros H; inversion H; subst. constructor.
  - intros a d E p l. unfold tree_of. split.
    + intros H; inversion H; subst. rewrite E in *. match goal with X : Some _ = Some _ |- _ => inversion X end.
      reflexivity.
    + destruct p; cbn; intros H; inversion H; subst. now constructor.
  - intros a p l. unfold tree_of. split.
    + intros H; inversion H; subst; reflexivity.
    + destruct p; cbn; intros H; inversion H; subst. constructor.
  - intros a p l. unfold tree_of. split.
    + intros H; inversion H; subst; reflexivity.
    + destruct p; cbn; intros H; inversion H; subst. constructor.
  - intros a t1 t2 D IH p l. destruct p as [|i p].
    + unfold tree_of. cbn. split; intros H; inversion H; subst; [auto|constructor].
    + rewrite lab_lst_iff. unfold tree_of. cbn [inst tat]. rewrite nth_error_map.
      specialize (IH i). destruct (nth_error [t1; t2] i) as [t|] eqn:E; cbn [option_map].
      * assert (i < 2)%nat by (apply (proj1 (nth_error_Some [t1; t2] i)); congruence).
        destruct IH as (w & Ew & Hw). specialize (Hw p l). unfold tree_of in Hw. rewrite <- Hw.
        rewrite (lab_cell m nu _ w Ew p l). split; [tauto|]. intros Q. split; auto. split; eauto.
      * apply nth_error_None in E. cbn in E. split; [lia|discriminate].
  - intros a f ts Ef D IH p l. destruct p as [|i p].
    + unfold tree_of. cbn. rewrite map_length. split; intros H; inversion H; subst; [|constructor; auto].
      congruence.
    + rewrite (lab_stc_iff _ _ _ _ _ _ _ _ Ef). unfold tree_of. cbn [inst tat]. rewrite nth_error_map.
      specialize (IH i). destruct (nth_error ts i) as [t|] eqn:E; cbn [option_map].
      * assert (i < length ts)%nat by (apply (proj1 (nth_error_Some ts i)); congruence).
        destruct IH as (w & Ew & Hw). specialize (Hw p l). unfold tree_of in Hw. rewrite <- Hw.
        rewrite (lab_cell m nu _ w Ew p l). split; [tauto|]. intros Q. split; auto. split; eauto.
      * apply nth_error_None in E. split; [lia|discriminate].
  - intros a [|i]; exact I.
  - intros a w t ts E D IHw Ds IH [|i]; cbn [nth_error].
    + exists w. cbn [Z.of_nat]. rewrite Z.add_0_r. auto.
    + specialize (IH i). replace (a + Z.of_nat (S i)) with (a + 1 + Z.of_nat i) by lia. exact IH.
Qed.

Lemma lab_den m sg w t : den m w t ->
  same_tree (lab m (fun a => tree_of (sg a)) w) (tree_of (inst sg t)).
Proof. apply (proj1 (lab_den_both m sg)). Qed.

Lemma same_iff m sg u v t1 t2 : den m u t1 -> den m v t2 ->
  (same m (fun a => tree_of (sg a)) u v <-> norm (inst sg t1) = norm (inst sg t2)).
Proof.
  intros D1 D2. split.
  - intros Sm. apply tat_inj. intros p.
    assert (Q : forall l, tat (inst sg t1) p = Some l <-> tat (inst sg t2) p = Some l).
    { intros l. rewrite <- (lab_den m sg u t1 D1 p l). rewrite <- (lab_den m sg v t2 D2 p l). apply Sm. }
    destruct (tat (inst sg t1) p) as [l|]; [symmetry; now apply Q|].
    destruct (tat (inst sg t2) p) as [l|]; auto. now apply Q.
  - intros E p l. rewrite (lab_den m sg u t1 D1 p l), (lab_den m sg v t2 D2 p l).
    unfold tree_of. rewrite <- tat_norm, E, tat_norm. tauto.
Qed.

(** the bindings as a substitution *)
Lemma bindings_subst L m m' D : covers D m -> acyclic L m' -> wf L m' -> ext m m' ->
  exists sg, forall a, m a = Some (Word (REF a)) -> den m' (REF a) (sg a).
Proof.
  intros C A W X. 
  assert (Q : forall D', (forall a, In a D' -> m a = Some (Word (REF a))) ->
    exists sg, forall a, In a D' -> den m' (REF a) (sg a)).
  { induction D' as [|x D' IH]; intros Hu; [exists TVar; intros a []|].
    destruct IH as [sg H]; [intros; apply Hu; now right|].
    destruct (A (REF x)) as [t Dt].
    { cbn. destruct (ext_word m m' x (REF x) X) as [w E]; [apply Hu; now left|eauto]. }
    exists (fun a => if a =? x then t else sg a). intros a [<-|I].
    - now rewrite Z.eqb_refl.
    - destruct (Z.eqb_spec a x) as [->|]; auto. }
  destruct (Q (filter (unb m) D)) as [sg H].
  - intros a I. apply filter_In in I as [_ I]. now apply unb_iff.
  - exists sg. intros a E. apply H. apply filter_In. split; [auto|now apply unb_iff].
Qed.

Lemma den_ext_subst m m' sg (X : ext m m') (H : forall a, m a = Some (Word (REF a)) -> den m' (REF a) (sg a)) :
  (forall w t, den m w t -> den m' w (inst sg t)) /\
  (forall b ts, den_args m b ts -> den_args m' b (map (inst sg) ts)).
Proof.
  apply (den_both m (fun w t _ => den m' w (inst sg t)) (fun b ts _ => den_args m' b (map (inst sg) ts))).
  - intros a E. cbn. auto.
  - intros a w t E N D IH. eapply den_ref; eauto. eapply ext_keep; eauto. congruence.
  - constructor.
  - intros a d E. constructor. eapply ext_keep; eauto. congruence.
  - constructor.
  - constructor.
  - intros a t1 t2 D IH. constructor. exact IH.
  - intros a f ts E D IH. constructor; auto. rewrite map_length. eapply ext_keep; eauto. congruence.
  - constructor.
  - intros b w t ts E D IHw Ds IH. cbn [map].
    destruct (X b) as [Q|[Q [w' Q']]].
    + econstructor; [rewrite Q; eauto|auto|auto].
    + rewrite Q in E. inversion E; subst w. inversion D; subst; [|congruence].
      specialize (H b Q). cbn [inst]. destruct (word_eqb w' (REF b)) eqn:Eq.
      * apply word_eqb_eq in Eq. subst w'. econstructor; eauto.
      * apply word_eqb_neq in Eq. econstructor; [exact Q'| |exact IH].
        inversion H as [b1 E1 X1 X2|b1 w1 t1 E1 N1 D1 X1 X2| | | | | |]; [congruence|].
        rewrite Q' in E1. inversion E1. exact D1.
Qed.

Lemma inst_var t : inst TVar t = t.
Proof.
  induction t as [a|a|d|n|i|f us IH] using term_ind'; auto. cbn. f_equal.
  induction IH; cbn; congruence.
Qed.
