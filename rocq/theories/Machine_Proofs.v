(** The trail and choice point invariant. *)
Require Import ZArith Lia List Bool.
Require Import Verif.Heap_Model Verif.Machine_Model Verif.Machine_Spec.
Import ListNotations.
Open Scope Z_scope.

(** ** memory updates *)
Lemma upd_same m a v : upd m a v a = v. Proof. unfold upd. now rewrite Z.eqb_refl. Qed.
Lemma upd_other m a v b : b <> a -> upd m a v b = m b.
Proof. intros N. unfold upd. destruct (Z.eqb_spec b a); congruence. Qed.
Lemma get_list_length m a n : length (get_list m a n) = n.
Proof. revert a; induction n; intros; cbn; auto. Qed.
Lemma upd_list_other vs : forall m a b, (b < a \/ a + Z.of_nat (length vs) <= b) -> upd_list m a vs b = m b.
Proof.
  induction vs as [|v vs IH]; intros m a b D; cbn [upd_list length] in *; auto.
  rewrite IH by lia. apply upd_other. lia.
Qed.
Lemma upd_list_in vs : forall m1 m2 a b, a <= b < a + Z.of_nat (length vs) ->
  upd_list m1 a vs b = upd_list m2 a vs b.
Proof.
  induction vs as [|v vs IH]; intros m1 m2 a b D; cbn [upd_list length] in *; [lia|].
  destruct (Z.eq_dec b a) as [->|N].
  - rewrite !upd_list_other by lia. now rewrite !upd_same.
  - apply IH. lia.
Qed.
Lemma upd_list_get n : forall m a b, upd_list m a (get_list m a n) b = m b.
Proof.
  induction n as [|n IH]; intros m a b; cbn [get_list upd_list]; auto.
  destruct (Z.eq_dec b a) as [->|N].
  - rewrite upd_list_other by lia. apply upd_same.
  - destruct (Z_lt_dec b (a + 1)) as [Q|Q]; [rewrite upd_list_other by lia; now apply upd_other|].
    destruct (Z_lt_dec b (a + 1 + Z.of_nat n)) as [Q'|Q'].
    + transitivity (upd_list m (a + 1) (get_list m (a + 1) n) b); [|apply IH].
      apply upd_list_in. rewrite get_list_length. lia.
    + rewrite upd_list_other by (rewrite get_list_length; lia). now apply upd_other.
Qed.

(** ** trail words *)
Lemma tag_value t a : 0 <= t < 4 -> Trail_Tag_Value t a = 8 * a + t.
Proof.
  intros Ht. unfold Trail_Tag_Value.
  assert (Z.land (8 * a) t = 0) as Q.
  { apply Z.bits_inj'. intros n Hn. rewrite Z.land_spec, Z.bits_0.
    change 8 with (2 ^ 3). rewrite Z.mul_comm, <- Z.shiftl_mul_pow2, Z.shiftl_spec by lia.
    destruct (Z_lt_dec n 3); [rewrite Z.testbit_neg_r by lia; reflexivity|].
    apply andb_false_iff. right. destruct (Z.eq_dec t 0) as [->|]; [apply Z.bits_0|].
    apply Z.bits_above_log2; [lia|]. assert (Z.log2 t < 2) by (apply Z.log2_lt_pow2; lia). lia. }
  rewrite <- Z.lxor_lor by auto. symmetry. now apply Z.add_nocarry_lxor.
Qed.
Lemma tag_of t a : 0 <= t < 4 -> Trail_Tag_Of (Trail_Tag_Value t a) = t.
Proof.
  intros Ht. rewrite tag_value by auto. unfold Trail_Tag_Of. change 3 with (Z.ones 2).
  rewrite Z.land_ones by lia. change (2 ^ 2) with 4.
  replace (8 * a + t) with (t + (2 * a) * 4) by lia. rewrite Z_mod_plus_full. now apply Z.mod_small.
Qed.
Lemma value_of t a : 0 <= t < 4 -> Trail_Value_Of (Trail_Tag_Value t a) = a.
Proof.
  intros Ht. rewrite tag_value by auto. unfold Trail_Value_Of. rewrite <- Z.ldiff_land.
  change 3 with (Z.ones 2). rewrite Z.ldiff_ones_r by lia.
  rewrite Z.shiftl_mul_pow2, Z.shiftr_div_pow2 by lia. change (2 ^ 2) with 4.
  replace (8 * a + t) with (t + (2 * a) * 4) by lia.
  rewrite Z_div_plus by lia. rewrite (Z.div_small t 4) by lia.
  replace ((0 + 2 * a) * 4) with (a * 8) by lia. apply Z_div_mult. lia.
Qed.

Lemma last_indep {T} (l : list T) (x d d' : T) : last (x :: l) d = last (x :: l) d'.
Proof. revert x; induction l as [|y l IH]; intros x; [reflexivity|]. apply (IH y). Qed.

Section Proofs.
Variable X : Type.
Variable call : Z -> list Z -> X -> X.
Variable G0 LSSA : Z.
Hypothesis G0_LSSA : G0 <= LSSA.
Notation mstate := (mstate X).
Notation op := (op X).
Notation cp := (cp X).
Notation ghost := (ghost X).

(** trail entries *)
Inductive ent := EUV (a : Z) | EOV (a v : Z) | EMV (a : Z) (vs : list Z) | EFC (f : Z) (args : list Z).
Definition enc (e : ent) : list Z :=
  match e with
  | EUV a => Trail_UV a
  | EOV a v => [Trail_Tag_Value TAG_TOV a; v]
  | EMV a vs => Trail_Tag_Value TAG_TMV a :: Z.of_nat (length vs) :: rev vs
  | EFC f args => Trail_FC f args
  end.
Definition flat (es : list ent) : list Z := concat (map enc es).
Definition ent_ok (e : ent) : Prop := match e with EMV _ vs => vs <> [] | _ => True end.
Definition touches (e : ent) (a : Z) : Prop :=
  match e with
  | EUV b | EOV b _ => a = b
  | EMV b vs => b <= a < b + Z.of_nat (length vs)
  | EFC _ _ => False
  end.
Definition undo1 (e : ent) (m : rmem) : rmem :=
  match e with
  | EUV a => upd m a (Make_Self_Ref a)
  | EOV a v => upd m a v
  | EMV a vs => upd_list m a vs
  | EFC _ _ => m
  end.
Definition undo1x (e : ent) (x : X) : X := match e with EFC f args => call f args x | _ => x end.
Fixpoint undo (es : list ent) (m : rmem) : rmem :=
  match es with [] => m | e :: es => undo es (undo1 e m) end.
Fixpoint undox (es : list ent) (x : X) : X :=
  match es with [] => x | e :: es => undox es (undo1x e x) end.

Lemma undo_app es1 es2 m : undo (es1 ++ es2) m = undo es2 (undo es1 m).
Proof. revert m; induction es1; intros; cbn; auto. Qed.
Lemma undox_app es1 es2 x : undox (es1 ++ es2) x = undox es2 (undox es1 x).
Proof. revert x; induction es1; intros; cbn; auto. Qed.

Lemma undo1_other e m a : ~ touches e a -> undo1 e m a = m a.
Proof.
  destruct e; cbn; intros N; auto; [apply upd_other; auto..|]. apply upd_list_other. lia.
Qed.
Lemma undo_other es : forall m a, (forall e, In e es -> ~ touches e a) -> undo es m a = m a.
Proof.
  induction es as [|e es IH]; intros m a N; cbn; auto.
  rewrite IH by (intros; apply N; now right). apply undo1_other. apply N. now left.
Qed.
Lemma undo1_agree e (P : Z -> Prop) m1 m2 : (forall a, P a -> m1 a = m2 a) ->
  forall a, P a -> undo1 e m1 a = undo1 e m2 a.
Proof.
  intros Q a Pa. destruct e; cbn; auto.
  - unfold upd. destruct (a =? a0); auto.
  - unfold upd. destruct (a =? a0); auto.
  - destruct (Z_le_dec a0 a); [destruct (Z_lt_dec a (a0 + Z.of_nat (length vs)))|].
    + apply upd_list_in. lia.
    + rewrite !upd_list_other by lia. auto.
    + rewrite !upd_list_other by lia. auto.
Qed.
Lemma undo_agree es (P : Z -> Prop) : forall m1 m2, (forall a, P a -> m1 a = m2 a) ->
  forall a, P a -> undo es m1 a = undo es m2 a.
Proof.
  induction es as [|e es IH]; intros m1 m2 Q a Pa; cbn; auto.
  apply IH; auto. apply undo1_agree. auto.
Qed.

Lemma Untrail_correct es : forall fuel low m x, Forall ent_ok es -> (length (flat es) <= fuel)%nat ->
  Untrail X call fuel (length low) (flat es ++ low) m x = Ret (low, undo es m, undox es x).
Proof.
  induction es as [|e es IH]; intros fuel low m x Ok Lf.
  - cbn [flat map concat app undo undox]. destruct fuel; cbn [Untrail]; now rewrite Nat.leb_refl.
  - inversion Ok as [|? ? Oe Oes]; subst. unfold flat in *. cbn [map concat] in *.
    rewrite app_length in Lf. rewrite <- app_assoc.
    assert (Ne : (1 <= length (enc e))%nat) by (destruct e; cbn; lia).
    destruct fuel as [|fuel]; [lia|]. cbn [Untrail].
    destruct (Nat.leb_spec (length (enc e ++ concat (map enc es) ++ low)) (length low)) as [Q|_].
    { rewrite !app_length in Q. lia. }
    cbn [undo undox].
    destruct e as [a|a v|a vs|f args]; cbn [enc Trail_UV Trail_FC app] in *.
    + rewrite tag_of, value_of by (unfold TAG_TUV; lia). cbn [Z.eqb TAG_TUV undo1 undo1x].
      change (TAG_TUV =? TAG_TUV) with true. cbn iota. apply IH; auto. cbn in Lf. lia.
    + rewrite tag_of, value_of by (unfold TAG_TOV; lia).
      change (TAG_TOV =? TAG_TUV) with false. change (TAG_TOV =? TAG_TOV) with true. cbn iota.
      apply IH; auto. cbn in Lf. lia.
    + rewrite tag_of, value_of by (unfold TAG_TMV; lia).
      change (TAG_TMV =? TAG_TUV) with false. change (TAG_TMV =? TAG_TOV) with false.
      change (TAG_TMV =? TAG_TMV) with true. cbn iota zeta.
      rewrite Nat2Z.id. cbn in Oe.
      assert (Lv : length vs <> O) by (destruct vs; cbn; congruence).
      destruct (Z.leb_spec (Z.of_nat (length vs)) 0) as [Q|_]; [lia|].
      destruct (Nat.ltb_spec (length (rev vs ++ concat (map enc es) ++ low)) (length vs)) as [Q|_].
      { rewrite app_length, rev_length in Q. lia. }
      cbn [orb].
      rewrite firstn_app, skipn_app, rev_length, Nat.sub_diag. cbn [firstn skipn].
      rewrite app_nil_r, firstn_all2, skipn_all2, rev_involutive by (rewrite rev_length; lia).
      cbn [app]. apply IH; auto. cbn [length] in Lf. lia.
    + rewrite tag_of by (unfold TAG_TFC; lia).
      change (TAG_TFC =? TAG_TUV) with false. change (TAG_TFC =? TAG_TOV) with false.
      change (TAG_TFC =? TAG_TMV) with false. cbn iota zeta.
      rewrite Nat2Z.id.
      destruct (Z.ltb_spec (Z.of_nat (length args)) 0) as [Q|_]; [lia|].
      destruct (Nat.ltb_spec (length (rev args ++ concat (map enc es) ++ low)) (length args)) as [Q|_].
      { rewrite app_length, rev_length in Q. lia. }
      cbn [orb].
      rewrite firstn_app, skipn_app, rev_length, Nat.sub_diag. cbn [firstn skipn].
      rewrite app_nil_r, firstn_all2, skipn_all2, rev_involutive by (rewrite rev_length; lia).
      cbn [app]. apply IH; auto. cbn [length] in Lf. lia.
Qed.

(** ** the invariant *)
Definition kle (k1 k2 : Z -> option kind) : Prop := forall a v, k1 a = Some v -> k2 a = Some v.

(** control words and data of a view lie inside the stacks *)
Definition bounded (k : Z -> option kind) (h lt : Z) : Prop :=
  forall a v, k a = Some v -> (G0 <= a < h) \/ (LSSA <= a < lt).

Fixpoint envs_ok (m : rmem) (k : Z -> option kind) (es : list env) (e : Z) : Prop :=
  match es with
  | [] => e = LSSA
  | en :: es =>
    e = e_adr en /\ LSSA <= e_prev en /\ 0 <= e_n en /\ e_prev en + 2 + e_n en <= e /\
    k (e - 1) = Some Ctl /\ k (e - 2) = Some Ctl /\ m (e - 1) = e_cp en /\ m (e - 2) = e_prev en /\
    envs_ok m k es (e_prev en)
  end.

Definition frame_kinds (c : cp) : Prop :=
  forall i, 1 <= i <= 7 + Z.of_nat (c_ar X c) ->
    c_kd X c (c_p X c - i) = Some (if (i =? 1) || (i =? 4) then Mut else Ctl).

(** the fixed words of a frame, in the memory of its creation *)
Definition frame_words (c : cp) : Prop :=
  let m := c_mem X c in let p := c_p X c in
  m (p - 2) = c_CP X c /\ m (p - 3) = c_E X c /\ m (p - 5) = c_H X c /\
  m (p - 6) = Z.of_nat (length (c_tr X c)) /\ m (p - 7) = c_CS X c /\
  forall i, 0 <= i < Z.of_nat (c_ar X c) -> m (p - 8 - i) = c_A X c i.

Record cp_ok (c : cp) (cs : list cp) : Prop := {
  k_kinds : frame_kinds c;
  k_words : frame_words c;
  k_below : top_b X LSSA cs + 7 + Z.of_nat (c_ar X c) <= c_p X c;
  k_base : LSSA <= top_b X LSSA cs;
  k_E : LSSA <= c_E X c <= c_p X c - 7 - Z.of_nat (c_ar X c);
  k_H : G0 <= c_H X c <= LSSA;
  k_bounded : bounded (c_kd X c) (c_H X c) (c_p X c);
  k_envs : envs_ok (c_mem X c) (c_kd X c) (c_envs X c) (c_E X c);
  k_frame_only : forall a, c_p X c - 7 - Z.of_nat (c_ar X c) <= a < c_p X c -> c_kd X c a <> Some Data
}.

Definition avoid (k : Z -> option kind) (es : list ent) : Prop :=
  forall e a, In e es -> touches e a -> k a = None \/ k a = Some Data.

Fixpoint inv_cps (m : rmem) (x : X) (tr : list Z) (k : Z -> option kind) (h : Z) (cs : list cp) : Prop :=
  match cs with
  | [] => True
  | c :: cs' =>
    cp_ok c cs' /\ c_H X c <= h /\ kle (c_kd X c) k /\
    m (c_p X c - 1) = c_alt X c /\ m (c_p X c - 4) = top_b X LSSA cs' /\
    exists es, tr = flat es ++ c_tr X c /\ Forall ent_ok es /\ avoid (c_kd X c) es /\
      undox es x = c_x X c /\
      (forall a, c_kd X c a = Some Data \/ c_kd X c a = Some Ctl -> undo es m a = c_mem X c a) /\
      inv_cps (undo es m) (c_x X c) (c_tr X c) (c_kd X c) (c_H X c) cs'
  end.

Record Inv (g : ghost) (s : mstate) : Prop := {
  i_B : B X s = top_b X LSSA (cps X g);
  i_HB : match cps X g with c :: _ => HB1 X s = c_H X c | [] => True end;
  i_H : G0 <= H X s <= LSSA;
  i_E : LSSA <= E X s;
  i_Bpos : LSSA <= B X s;
  i_bounded : bounded (kd X g) (H X s) (ltop (E X s) (B X s));
  i_envs : envs_ok (mem X s) (kd X g) (envs X g) (E X s);
  i_cps : inv_cps (mem X s) (xs X s) (TR X s) (kd X g) (H X s) (cps X g);
  i_ids : forall c, In c (cps X g) -> (c_id X c < nxt X g)%nat
}.

(** ** generic preservation lemmas *)
Lemma kle_refl k : kle k k. Proof. intros a v; auto. Qed.
Lemma kle_trans k1 k2 k3 : kle k1 k2 -> kle k2 k3 -> kle k1 k3.
Proof. intros Q1 Q2 a v Q. auto. Qed.

Lemma inv_cps_mono m x tr k h cs k' h' : inv_cps m x tr k h cs ->
  (match cs with [] => True | c :: _ => kle (c_kd X c) k' /\ c_H X c <= h' end) ->
  inv_cps m x tr k' h' cs.
Proof.
  destruct cs as [|c cs]; cbn; auto. intros (Q1 & Q2 & Q3 & Q4 & Q5 & Q6) [P1 P2]. repeat (split; auto).
Qed.

Lemma inv_cps_off (P : Z -> Prop) cs : forall m1 m2 x tr k h,
  (forall c a, In c cs -> P a ->
     c_kd X c a <> Some Data /\ c_kd X c a <> Some Ctl /\ a <> c_p X c - 1 /\ a <> c_p X c - 4) ->
  (forall b, ~ P b -> m1 b = m2 b) ->
  inv_cps m1 x tr k h cs -> inv_cps m2 x tr k h cs.
Proof.
  induction cs as [|c cs IH]; intros m1 m2 x tr k h Nk Eq Q; cbn in *; auto.
  destruct Q as (K & Q2 & Q3 & Q4 & Q5 & es & P1 & P2 & P3 & P4 & P5 & P6).
  split; [exact K|]. split; [exact Q2|]. split; [exact Q3|].
  split; [rewrite <- Eq; [exact Q4|]; intros I; apply (Nk c) in I; tauto|].
  split; [rewrite <- Eq; [exact Q5|]; intros I; apply (Nk c) in I; tauto|].
  exists es. split; [exact P1|]. split; [exact P2|]. split; [exact P3|]. split; [exact P4|].
  assert (U : forall b, ~ P b -> undo es m1 b = undo es m2 b) by (apply undo_agree; exact Eq).
  split; [intros b Hb; rewrite <- U; [auto|]; intros I; apply (Nk c) in I; tauto|].
  eapply IH; [|exact U|exact P6]. auto.
Qed.
(** addresses free in every snapshot *)
Lemma cp_free c cs a : cp_ok c cs -> c_kd X c a = None ->
  c_kd X c a <> Some Data /\ c_kd X c a <> Some Ctl /\ a <> c_p X c - 1 /\ a <> c_p X c - 4.
Proof.
  intros K N. rewrite N. repeat split; try discriminate; intros ->.
  - rewrite (k_kinds _ _ K 1) in N by lia. discriminate.
  - rewrite (k_kinds _ _ K 4) in N by lia. discriminate.
Qed.
Lemma inv_cps_ok cs : forall m x tr k h c, inv_cps m x tr k h cs -> In c cs -> exists cs', cp_ok c cs'.
Proof.
  induction cs as [|c0 cs IH]; intros m x tr k h c Q I; [destruct I|].
  cbn in Q. destruct Q as (K & Q2 & Q3 & Q4 & Q5 & es & P1 & P2 & P3 & P4 & P5 & P6).
  destruct I as [<-|I]; [eauto|]. eapply IH; eauto.
Qed.
Lemma inv_cps_free (P : Z -> Prop) cs m1 m2 x tr k h :
  (forall c a, In c cs -> P a -> c_kd X c a = None) -> (forall b, ~ P b -> m1 b = m2 b) ->
  inv_cps m1 x tr k h cs -> inv_cps m2 x tr k h cs.
Proof.
  intros Nk Eq Q. refine (inv_cps_off P cs m1 m2 x tr k h _ Eq Q).
  intros c a I Pa. destruct (inv_cps_ok _ _ _ _ _ _ _ Q I) as (cs' & K). exact (cp_free c cs' a K (Nk c a I Pa)).
Qed.
Lemma inv_cps_ext cs m1 m2 x tr k h : (forall b, m1 b = m2 b) ->
  inv_cps m1 x tr k h cs -> inv_cps m2 x tr k h cs.
Proof.
  revert m1 m2 x tr k h.
  induction cs as [|c cs IH]; intros m1 m2 x tr k h Eq Q; cbn in *; auto.
  destruct Q as (K & Q2 & Q3 & Q4 & Q5 & es & P1 & P2 & P3 & P4 & P5 & P6).
  split; [exact K|]. split; [exact Q2|]. split; [exact Q3|].
  split; [now rewrite <- Eq|]. split; [now rewrite <- Eq|].
  exists es. split; [exact P1|]. split; [exact P2|]. split; [exact P3|]. split; [exact P4|].
  assert (U : forall b, undo es m1 b = undo es m2 b) by (intros b; apply (undo_agree es (fun _ => True)); auto).
  split; [intros b Hb; rewrite <- U; auto|]. eapply IH; eauto.
Qed.

(** a trailed change of data words *)
Lemma inv_cps_trail e m1 m2 x1 x2 tr k h cs : ent_ok e ->
  (forall a, touches e a -> k a = Some Data) ->
  (forall a, ~ touches e a -> m2 a = m1 a) ->
  (forall a, undo1 e m2 a = m1 a) -> undo1x e x2 = x1 ->
  inv_cps m1 x1 tr k h cs -> inv_cps m2 x2 (enc e ++ tr) k h cs.
Proof.
  intros Oe Te Fr Un Ux Q. destruct cs as [|c cs]; cbn in *; auto.
  destruct Q as (K & Q2 & Q3 & Q4 & Q5 & es & P1 & P2 & P3 & P4 & P5 & P6).
  assert (Av : forall a, touches e a -> c_kd X c a = None \/ c_kd X c a = Some Data).
  { intros a Ta. apply Te in Ta. destruct (c_kd X c a) as [v|] eqn:E'; auto. apply Q3 in E'. right. congruence. }
  assert (Nt : forall a v, c_kd X c a = Some v -> v <> Data -> ~ touches e a).
  { intros a v E' Nv Ta. apply Av in Ta. destruct Ta; congruence. }
  split; [exact K|]. split; [exact Q2|]. split; [exact Q3|].
  split; [rewrite Fr; [exact Q4|]; eapply Nt; [apply (k_kinds _ _ K 1); lia|discriminate]|].
  split; [rewrite Fr; [exact Q5|]; eapply Nt; [apply (k_kinds _ _ K 4); lia|discriminate]|].
  exists (e :: es). unfold flat. cbn [map concat]. rewrite <- app_assoc. fold (flat es).
  split; [now rewrite P1|]. split; [constructor; auto|].
  split; [intros e' a [<-|I] Ta; [auto|eapply P3; eauto]|].
  cbn [undox undo]. split; [now rewrite Ux|].
  assert (U : forall b, undo es m1 b = undo es (undo1 e m2) b).
  { intros b. apply (undo_agree es (fun _ => True)); auto. }
  split; [intros a Ha; rewrite <- U; auto|]. eapply inv_cps_ext; [exact U|exact P6].
Qed.

(** dropping the newest choice point *)
Lemma inv_cps_skip m x tr k h c c2 cs : inv_cps m x tr k h (c :: c2 :: cs) ->
  inv_cps m x tr k h (c2 :: cs).
Proof.
  cbn [inv_cps].
  intros (K & Q2 & Q3 & Q4 & Q5 & es & P1 & P2 & P3 & P4 & P5 & K' & R2 & R3 & R4 & R5 & es' & S1 & S2 & S3 & S4 & S5 & S6).
  assert (U : forall a v, c_kd X c a = Some v -> v <> Data -> undo es m a = m a).
  { intros a v E' Nv. apply undo_other. intros e I Ta. destruct (P3 e a I Ta); congruence. }
  split; [exact K'|]. split; [lia|]. split; [eapply kle_trans; eauto|].
  split; [rewrite <- (U _ Mut); [exact R4|apply R3; apply (k_kinds _ _ K' 1); lia|discriminate]|].
  split; [rewrite <- (U _ Mut); [exact R5|apply R3; apply (k_kinds _ _ K' 4); lia|discriminate]|].
  exists (es ++ es'). unfold flat. rewrite map_app, concat_app, <- app_assoc. fold (flat es) (flat es').
  split; [now rewrite P1, S1|]. split; [apply Forall_app; auto|].
  split.
  { intros e a I Ta. apply in_app_or in I as [I|I]; [|eapply S3; eauto].
    destruct (P3 e a I Ta) as [N|D]; destruct (c_kd X c2 a) as [v|] eqn:E'; auto; apply R3 in E'; [congruence|].
    right. congruence. }
  rewrite undox_app, P4, S4. split; auto. rewrite undo_app. split; auto.
Qed.

Lemma inv_cps_suffix cs1 : forall m x tr k h c cs, inv_cps m x tr k h (cs1 ++ c :: cs) ->
  inv_cps m x tr k h (c :: cs).
Proof.
  induction cs1 as [|c1 cs1 IH]; intros m x tr k h c cs Q; auto.
  destruct cs1 as [|c2 cs1]; [eapply inv_cps_skip; exact Q|]. apply IH. eapply inv_cps_skip. exact Q.
Qed.

(** control words have not changed since *)
Lemma inv_cps_ctl m x tr k h c cs a : inv_cps m x tr k h (c :: cs) -> c_kd X c a = Some Ctl ->
  m a = c_mem X c a.
Proof.
  cbn. intros (K & Q2 & Q3 & Q4 & Q5 & es & P1 & P2 & P3 & P4 & P5 & P6) Ka.
  rewrite <- P5 by auto. symmetry. apply undo_other. intros e I Ta. destruct (P3 e a I Ta); congruence.
Qed.

(** every choice point of the chain is well placed *)
Lemma inv_cps_all cs : forall m x tr k h, inv_cps m x tr k h cs -> forall c, In c cs ->
  c_H X c <= h /\ kle (c_kd X c) k /\ c_p X c <= top_b X LSSA cs /\ LSSA + 7 <= c_p X c /\
  bounded (c_kd X c) (c_H X c) (c_p X c) /\ c_H X c <= match cs with [] => 0 | c0 :: _ => c_H X c0 end.
Proof.
  induction cs as [|c0 cs IH]; intros m x tr k h Q c I; [destruct I|].
  cbn in Q. destruct Q as (K & Q2 & Q3 & Q4 & Q5 & es & P1 & P2 & P3 & P4 & P5 & P6).
  pose proof (k_below _ _ K) as KB. pose proof (k_base _ _ K).
  destruct I as [<-|I].
  - cbn [top_b]. repeat split; auto; try lia. apply (k_bounded _ _ K).
  - destruct (IH _ _ _ _ _ P6 c I) as (A1 & A2 & A3 & A4 & A5 & A6). cbn [top_b].
    repeat split; auto; try lia. eapply kle_trans; eauto.
Qed.

Lemma envs_ok_change m1 m2 k1 k2 es : forall e, envs_ok m1 k1 es e ->
  (forall a, LSSA <= a < e -> k1 a = Some Ctl -> k2 a = Some Ctl /\ m2 a = m1 a) -> envs_ok m2 k2 es e.
Proof.
  induction es as [|en es IH]; intros e Q Ch; cbn in *; auto.
  destruct Q as (-> & Q1 & Q2 & Q3 & Q4 & Q5 & Q6 & Q7 & Q8).
  destruct (Ch (e_adr en - 1) ltac:(lia) Q4) as [A1 A2].
  destruct (Ch (e_adr en - 2) ltac:(lia) Q5) as [A3 A4].
  repeat (split; [congruence || lia|]). apply IH; auto. intros a Ha. apply Ch. lia.
Qed.

Lemma envs_ok_E m k es e : envs_ok m k es e -> LSSA <= e.
Proof. destruct es; cbn; [lia|]. intros (-> & Q). lia. Qed.

Lemma ltop_max e b : ltop e b = Z.max e b.
Proof. unfold ltop. destruct (Z.leb_spec e b); lia. Qed.
Lemma Local_Top_max s : Local_Top X s = Z.max (E X s) (B X s).
Proof. unfold Local_Top. destruct (Z.leb_spec (E X s) (B X s)); lia. Qed.
Lemma needs_iff s a : Word_Needs_Trailing X LSSA s a = true <-> a < HB1 X s \/ (LSSA <= a < B X s).
Proof.
  unfold Word_Needs_Trailing, Is_A_Local_Adr.
  rewrite orb_true_iff, andb_true_iff, !Z.ltb_lt, Z.leb_le. lia.
Qed.

Lemma cps_none_above m x tr k h cs a : inv_cps m x tr k h cs -> LSSA <= a -> top_b X LSSA cs <= a ->
  forall c, In c cs -> c_kd X c a = None.
Proof.
  intros Q L T c I. destruct (inv_cps_all _ _ _ _ _ _ Q c I) as (A1 & A2 & A3 & A4 & A5 & A6).
  destruct (inv_cps_ok _ _ _ _ _ _ _ Q I) as (cs' & K). pose proof (k_H _ _ K).
  destruct (c_kd X c a) as [v|] eqn:Ek; auto. apply A5 in Ek. lia.
Qed.

(** removing an inner choice point *)
Lemma inv_cps_remove cs1 : forall m x tr k h c kc cs2,
  inv_cps m x tr k h (cs1 ++ c :: kc :: cs2) -> LSSA <= top_b X LSSA cs2 ->
  inv_cps (upd m (c_p X c - 4) (top_b X LSSA cs2)) x tr k h (cs1 ++ c :: cs2).
Proof.
  induction cs1 as [|c0 cs1 IH]; intros m x tr k h c kc cs2 Q Lb.
  - cbn [app] in *.
    assert (T2 : inv_cps m x tr k h (c :: kc :: cs2)) by exact Q.
    cbn [inv_cps] in Q.
    destruct Q as (K & Q2 & Q3 & Q4 & Q5 & es & P1 & P2 & P3 & P4 & P5 & P6).
    assert (K2 := P6). destruct K2 as (K2 & _).
    pose proof (k_below _ _ K) as KB. pose proof (k_below _ _ K2) as KB2. cbn [top_b] in KB.
    assert (Km := k_kinds _ _ K 4 ltac:(lia)). cbn in Km.
    cbn [inv_cps]. split.
    { destruct K; constructor; auto. cbn [top_b] in *. lia. }
    split; [exact Q2|]. split; [exact Q3|]. split; [rewrite upd_other by lia; exact Q4|].
    split; [apply upd_same|]. exists es.
    split; [exact P1|]. split; [exact P2|]. split; [exact P3|]. split; [exact P4|].
    assert (U : forall b, b <> c_p X c - 4 -> undo es m b = undo es (upd m (c_p X c - 4) (top_b X LSSA cs2)) b).
    { apply undo_agree. intros b Nb. now rewrite upd_other. }
    split; [intros b Hb; rewrite <- U; [auto|intros ->; rewrite Km in Hb; destruct Hb; discriminate]|].
    assert (P7 : inv_cps (undo es m) (c_x X c) (c_tr X c) (c_kd X c) (c_H X c) cs2).
    { destruct cs2 as [|c2 cs2]; [exact I|]. eapply inv_cps_skip. exact P6. }
    refine (inv_cps_free (fun b => b = c_p X c - 4) _ _ _ _ _ _ _ _ U P7).
    intros c' a I ->. refine (cps_none_above _ _ _ _ _ _ _ P7 _ _ c' I); lia.
  - rewrite <- app_comm_cons in Q |- *. cbn [inv_cps] in Q |- *.
    destruct Q as (K & Q2 & Q3 & Q4 & Q5 & es & P1 & P2 & P3 & P4 & P5 & P6).
    assert (Tb : top_b X LSSA (cs1 ++ c :: kc :: cs2) = top_b X LSSA (cs1 ++ c :: cs2)) by (destruct cs1; reflexivity).
    destruct (inv_cps_all _ _ _ _ _ _ P6 c ltac:(apply in_or_app; right; left; auto)) as (_ & L2 & L3 & _).
    assert (Kc : exists cs', cp_ok c cs') by (eapply inv_cps_ok; [exact P6|apply in_or_app; right; left; auto]).
    destruct Kc as (cs' & Kc).
    assert (Km := L2 _ _ (k_kinds _ _ Kc 4 ltac:(lia))). cbn in Km.
    pose proof (k_below _ _ K) as KB.
    split. { destruct K; constructor; auto; rewrite <- Tb; auto. }
    split; [exact Q2|]. split; [exact Q3|]. split; [rewrite upd_other by lia; exact Q4|].
    split; [rewrite upd_other by lia; rewrite <- Tb; exact Q5|]. exists es.
    split; [exact P1|]. split; [exact P2|]. split; [exact P3|]. split; [exact P4|].
    set (v := top_b X LSSA cs2) in *. set (a := c_p X c - 4) in *.
    assert (U : forall b, undo es (upd m a v) b = upd (undo es m) a v b).
    { intros b. destruct (Z.eq_dec b a) as [->|Nb].
      - rewrite upd_same, undo_other; [apply upd_same|].
        intros e I Ta. destruct (P3 e a I Ta); congruence.
      - rewrite upd_other by auto.
        apply (undo_agree es (fun b => b <> a)); auto. intros b' Nb'. now rewrite upd_other. }
    split; [intros b Hb; rewrite U, upd_other; [auto|intros ->; rewrite Km in Hb; destruct Hb; discriminate]|].
    eapply inv_cps_ext; [|eapply IH; [exact P6|auto]]. intros b. symmetry. apply U.
Qed.

(** ** reading a frame *)
Lemma args_words cur (ar : Z -> Z) n : forall m b,
  fold_left (fun m i => upd m (cur - 8 - Z.of_nat i) (ar (Z.of_nat i))) (seq 0 n) m b =
  if (cur - 8 - Z.of_nat n <? b) && (b <=? cur - 8) then ar (cur - 8 - b) else m b.
Proof.
  induction n as [|n IH]; intros m b.
  - cbn [seq fold_left]. destruct (Z.ltb_spec (cur - 8 - Z.of_nat 0) b), (Z.leb_spec b (cur - 8)); cbn; auto; lia.
  - rewrite seq_S, fold_left_app. cbn [fold_left Nat.add]. unfold upd at 1.
    destruct (Z.eqb_spec b (cur - 8 - Z.of_nat n)) as [->|N].
    + destruct (Z.ltb_spec (cur - 8 - Z.of_nat (S n)) (cur - 8 - Z.of_nat n)); [|lia].
      destruct (Z.leb_spec (cur - 8 - Z.of_nat n) (cur - 8)); [|lia]. cbn. f_equal. lia.
    + rewrite IH. destruct (Z.ltb_spec (cur - 8 - Z.of_nat n) b), (Z.ltb_spec (cur - 8 - Z.of_nat (S n)) b);
        destruct (Z.leb_spec b (cur - 8)); cbn; auto; lia.
Qed.


Lemma bounded_none k h lt a : bounded k h lt -> (G0 <= a < LSSA -> h <= a) -> (LSSA <= a -> lt <= a) -> h <= LSSA -> k a = None.
Proof. intros Bd N1 N2 Hh. destruct (k a) as [v|] eqn:Ek; auto. apply Bd in Ek. lia. Qed.

(** writing an untrailed word *)
Lemma Inv_untrailed g s a v : Inv g s -> kd X g a = Some Data -> Word_Needs_Trailing X LSSA s a = false ->
  Inv g (set_mem X s (upd (mem X s) a v)).
Proof.
  intros I Ka Wn.
  assert (Nn : ~ (a < HB1 X s \/ LSSA <= a < B X s)) by (rewrite <- needs_iff, Wn; discriminate).
  destruct I as [I1 I2 I3 I4 I5 I6 I7 I8 I9].
  constructor; cbn [set_mem mem xs H E B HB1 TR] in *; auto.
  - eapply envs_ok_change; [exact I7|]. intros b Hb Kb. split; auto. apply upd_other. congruence.
  - refine (inv_cps_free (fun b => b = a) _ _ _ _ _ _ _ _ _ I8).
    + intros c b Ic ->. destruct (inv_cps_all _ _ _ _ _ _ I8 c Ic) as (A1 & A2 & A3 & A4 & A5 & A6).
      destruct (c_kd X c a) as [w|] eqn:Ek; auto. apply A5 in Ek. exfalso.
      destruct (cps X g) as [|c0 cs]; [destruct Ic|]. cbn [top_b] in *. rewrite I2, I1 in Nn. lia.
    + intros b Nb. now rewrite upd_other.
Qed.
Lemma Inv_trailed g s e m' x' : Inv g s -> ent_ok e ->
  (forall a, touches e a -> kd X g a = Some Data) ->
  (forall a, ~ touches e a -> m' a = mem X s a) ->
  (forall a, undo1 e m' a = mem X s a) -> undo1x e x' = xs X s ->
  Inv g (MS X m' x' (H X s) (E X s) (B X s) (HB1 X s) (CP X s) (CS X s) (STAMP X s) (enc e ++ TR X s) (A X s)).
Proof.
  intros [I1 I2 I3 I4 I5 I6 I7 I8 I9] Oe Te Fr Un Ux.
  constructor; cbn [mem xs H E B HB1 TR] in *; auto.
  - eapply envs_ok_change; [exact I7|]. intros b Hb Kb. split; auto. apply Fr.
    intros Tb. apply Te in Tb. congruence.
  - eapply inv_cps_trail; eauto.
Qed.
Lemma upd_upd_same m a v w b : m a = w -> upd (upd m a v) a w b = m b.
Proof. intros <-. unfold upd. destruct (Z.eqb_spec b a) as [->|]; auto. Qed.

Lemma Inv_push g s v : Inv g s -> H X s < LSSA ->
  Inv (Gh X (kset (kd X g) (H X s) Data) (envs X g) (cps X g) (nxt X g)) (push_H X s v).
Proof.
  intros [I1 I2 I3 I4 I5 I6 I7 I8 I9] Hl.
  assert (Kn : kd X g (H X s) = None) by (eapply bounded_none; [exact I6|lia..]).
  constructor; cbn [push_H mem xs H E B HB1 TR kd envs cps nxt] in *; auto; try lia.
  - intros a w. unfold kset. destruct (Z.eqb_spec a (H X s)) as [->|]; [intros _; lia|].
    intros Ka. apply I6 in Ka. lia.
  - eapply envs_ok_change; [exact I7|]. intros b Hb Kb. unfold kset.
    destruct (Z.eqb_spec b (H X s)); [lia|]. split; auto. now apply upd_other.
  - apply (inv_cps_mono _ _ _ (kd X g) (H X s)).
    + refine (inv_cps_free (fun b => b = H X s) _ _ _ _ _ _ _ _ _ I8).
      * intros c a Ic ->. destruct (inv_cps_all _ _ _ _ _ _ I8 c Ic) as (A1 & A2 & _).
        destruct (c_kd X c (H X s)) as [w|] eqn:Ek; auto. apply A2 in Ek. congruence.
      * intros b Nb. now rewrite upd_other.
    + destruct (cps X g) as [|c cs]; auto. cbn in I8. destruct I8 as (_ & Q2 & Q3 & _). split; [|lia].
      intros a w Ka. unfold kset. apply Q3 in Ka. destruct (Z.eqb_spec a (H X s)); congruence.
Qed.
Lemma Inv_bind g s a v : Inv g s -> kd X g a = Some Data -> mem X s a = Make_Self_Ref a ->
  Inv g (Bind_UV X LSSA s a v).
Proof.
  intros I Ka Ma. unfold Bind_UV. destruct (Word_Needs_Trailing X LSSA s a) eqn:Wn.
  - refine (Inv_trailed g s (EUV a) (upd (mem X s) a v) (xs X s) I Logic.I _ _ _ eq_refl); cbn [touches undo1].
    + intros b ->. exact Ka.
    + intros b Nb. now apply upd_other.
    + intros b. now apply upd_upd_same.
  - now apply Inv_untrailed.
Qed.

(** ** backtracking *)
Lemma backtrack_common g s c cs : Inv g s -> cps X g = c :: cs ->
  exists m', update_delete_common X call s =
      Ret (MS X m' (c_x X c) (c_H X c) (c_E X c) (c_p X c) (HB1 X s) (c_CP X c) (c_CS X c) (STAMP X s) (c_tr X c) (A X s)) /\
    (forall a, c_kd X c a = Some Data \/ c_kd X c a = Some Ctl -> m' a = c_mem X c a) /\
    m' (c_p X c - 1) = c_alt X c /\ m' (c_p X c - 4) = top_b X LSSA cs /\
    inv_cps m' (c_x X c) (c_tr X c) (c_kd X c) (c_H X c) cs.
Proof.
  intros [I1 I2 I3 I4 I5 I6 I7 I8 I9] Ec. rewrite Ec in *. cbn [top_b] in I1.
  assert (Q0 := I8). cbn [inv_cps] in I8.
  destruct I8 as (K & Q2 & Q3 & Q4 & Q5 & es & P1 & P2 & P3 & P4 & P5 & P6).
  pose proof (k_kinds _ _ K) as FK. pose proof (k_words _ _ K) as (W2 & W3 & W5 & W6 & W7 & Wa).
  assert (Ctl_of : forall i, 1 <= i <= 7 + Z.of_nat (c_ar X c) -> i <> 1 -> i <> 4 -> c_kd X c (c_p X c - i) = Some Ctl).
  { intros i Hi N1 N4. rewrite FK by auto. destruct (Z.eqb_spec i 1), (Z.eqb_spec i 4); try congruence; reflexivity. }
  exists (undo es (mem X s)).
  assert (U : forall i, 1 <= i <= 7 + Z.of_nat (c_ar X c) -> undo es (mem X s) (c_p X c - i) =
     if (i =? 1) || (i =? 4) then mem X s (c_p X c - i) else c_mem X c (c_p X c - i)).
  { intros i Hi. pose proof (FK i Hi) as F. destruct ((i =? 1) || (i =? 4)).
    - apply undo_other. intros e I Ta. destruct (P3 _ _ I Ta); congruence.
    - apply P5. auto. }
  split.
  { unfold update_delete_common. cbn zeta. unfold TRB. rewrite I1.
    rewrite (inv_cps_ctl _ _ _ _ _ _ _ (c_p X c - 6) Q0) by (apply Ctl_of; lia).
    rewrite W6, Nat2Z.id. rewrite P1 at 2. rewrite (Untrail_correct es).
    - cbn [bind]. unfold HB, EB, CPB, CSB. rewrite !U by lia. cbn [Z.eqb orb].
      rewrite P4, W2, W3, W5, W7. reflexivity.
    - exact P2.
    - rewrite P1, app_length. lia. }
  split; [exact P5|]. rewrite !U by lia. cbn [Z.eqb orb]. split; [exact Q4|]. split; [exact Q5|]. exact P6.
Qed.

Lemma Inv_update g s alt c cs : Inv g s -> cps X g = c :: cs ->
  exists s', exec X call LSSA s (OUpdate X alt (c_ar X c)) = Ret s' /\
    Inv (gupd X LSSA g s (OUpdate X alt (c_ar X c)) s') s' /\
    (forall a, c_kd X c a = Some Data \/ c_kd X c a = Some Ctl -> mem X s' a = c_mem X c a) /\
    xs X s' = c_x X c /\ H X s' = c_H X c /\ E X s' = c_E X c /\ B X s' = c_p X c /\ HB1 X s' = c_H X c /\
    CP X s' = c_CP X c /\ CS X s' = c_CS X c /\ TR X s' = c_tr X c /\
    (forall i, 0 <= i < Z.of_nat (c_ar X c) -> A X s' i = c_A X c i).
Proof.
  intros I Ec. destruct (backtrack_common g s c cs I Ec) as (m' & Eq & P5 & A1 & A4 & P6).
  destruct I as [I1 I2 I3 I4 I5 I6 I7 I8 I9]. rewrite Ec in *. cbn [top_b] in I1.
  cbn [inv_cps] in I8. destruct I8 as (K & Q2 & Q3 & Q4 & Q5 & _).
  pose proof (k_kinds _ _ K) as FK. pose proof (k_words _ _ K) as (W2 & W3 & W5 & W6 & W7 & Wa).
  pose proof (k_below _ _ K) as KB.
  assert (K1 := FK 1 ltac:(lia)). cbn in K1.
  assert (M : forall a, c_kd X c a = Some Data \/ c_kd X c a = Some Ctl -> upd m' (c_p X c - 1) alt a = c_mem X c a).
  { intros a Ha. rewrite upd_other; [auto|]. intros ->. rewrite K1 in Ha. destruct Ha; discriminate. }
  cbn [exec]. unfold Update_Choice_Point. cbn zeta. rewrite Eq. cbn [bind].
  eexists. split; [reflexivity|]. rewrite I1. cbn [restore_args set_mem mem xs H E B HB1 CP CS TR A].
  split.
  { unfold gupd. rewrite Ec. constructor; cbn [restore_args set_mem mem xs H E B HB1 CP CS TR A kd envs cps nxt set_alt top_b c_p c_H]; auto.
    - apply (k_H _ _ K).
    - apply (k_E _ _ K).
    - pose proof (k_E _ _ K). lia.
    - intros a v Ka. apply (k_bounded _ _ K) in Ka. rewrite ltop_max. lia.
    - eapply envs_ok_change; [apply (k_envs _ _ K)|]. intros b Hb Kb. split; auto.
    - cbn [inv_cps set_alt c_p c_H c_kd c_alt c_tr c_x c_mem].
      split; [destruct K; constructor; auto|]. split; [lia|]. split; [apply kle_refl|].
      split; [apply upd_same|]. split; [rewrite upd_other by lia; auto|].
      exists []. cbn [flat map concat app undo undox].
      split; [reflexivity|]. split; [constructor|]. split; [intros e a []|]. split; [reflexivity|].
      split; [exact M|].
      refine (inv_cps_free (fun b => b = c_p X c - 1) _ _ _ _ _ _ _ _ _ P6).
      + intros c' a I ->. pose proof (k_base _ _ K). refine (cps_none_above _ _ _ _ _ _ _ P6 _ _ c' I); lia.
      + intros b Nb. now rewrite upd_other.
    - intros c' [<-|I]; cbn; [apply (I9 c)|apply I9]; cbn; auto. }
  split; [exact M|]. repeat (split; [reflexivity|]).
  intros i Hi. destruct (Z.leb_spec 0 i); [|lia]. destruct (Z.ltb_spec i (Z.of_nat (c_ar X c))); [|lia]. cbn [andb].
  rewrite M; [apply Wa; lia|]. right. replace (c_p X c - 8 - i) with (c_p X c - (8 + i)) by lia.
  rewrite FK by lia. destruct (Z.eqb_spec (8 + i) 1), (Z.eqb_spec (8 + i) 4); try lia. reflexivity.
Qed.

Lemma ktrunc_le (k k0 : Z -> option kind) h p lt : kle k k0 -> bounded k h p -> p <= lt -> h <= LSSA -> kle k (ktrunc LSSA lt k0).
Proof.
  intros Le Bd Hp Hh a v Ka. unfold ktrunc. pose proof (Bd _ _ Ka).
  destruct (Z.leb_spec LSSA a), (Z.leb_spec lt a); cbn; try lia; apply Le; auto.
Qed.
Lemma ktrunc_bounded k h lt lt' : bounded k h lt -> bounded (ktrunc LSSA lt' k) h lt'.
Proof.
  intros Bd a v. unfold ktrunc. destruct (Z.leb_spec LSSA a), (Z.leb_spec lt' a); cbn; try discriminate;
  intros Ka; apply Bd in Ka; lia.
Qed.
Lemma ktrunc_Ctl lt k a v : LSSA <= a < lt -> k a = Some v -> ktrunc LSSA lt k a = Some v.
Proof. intros Ha Ka. unfold ktrunc. destruct (Z.leb_spec LSSA a), (Z.leb_spec lt a); cbn; try lia; auto. Qed.
Lemma inv_cps_trunc m x tr k h cs lt : inv_cps m x tr k h cs -> top_b X LSSA cs <= lt ->
  inv_cps m x tr (ktrunc LSSA lt k) h cs.
Proof.
  intros Q Hl. eapply inv_cps_mono; [exact Q|]. destruct cs as [|c cs]; auto.
  cbn [inv_cps] in Q. destruct Q as (K & Q2 & Q3 & _). split; auto.
  pose proof (k_H _ _ K). eapply ktrunc_le; [exact Q3|apply (k_bounded _ _ K)|exact Hl|lia].
Qed.

Lemma HB_of m x tr k h c cs : inv_cps m x tr k h (c :: cs) -> HB m (c_p X c) = c_H X c.
Proof.
  intros Q. unfold HB. rewrite (inv_cps_ctl _ _ _ _ _ _ _ _ Q).
  - destruct Q as (K & _). apply (k_words _ _ K).
  - destruct Q as (K & _). apply (k_kinds _ _ K 5). lia.
Qed.

Lemma Inv_delete g s c c2 cs : Inv g s -> cps X g = c :: c2 :: cs ->
  exists s', exec X call LSSA s (ODelete X (c_ar X c)) = Ret s' /\
    Inv (gupd X LSSA g s (ODelete X (c_ar X c)) s') s' /\
    (forall a, c_kd X c a = Some Data \/ c_kd X c a = Some Ctl -> mem X s' a = c_mem X c a) /\
    xs X s' = c_x X c /\ H X s' = c_H X c /\ E X s' = c_E X c /\ B X s' = c_p X c2 /\ HB1 X s' = c_H X c2 /\
    CP X s' = c_CP X c /\ CS X s' = c_CS X c /\ TR X s' = c_tr X c /\
    (forall i, 0 <= i < Z.of_nat (c_ar X c) -> A X s' i = c_A X c i).
Proof.
  intros I Ec. destruct (backtrack_common g s c _ I Ec) as (m' & Eq & P5 & A1 & A4 & P6).
  destruct I as [I1 I2 I3 I4 I5 I6 I7 I8 I9]. rewrite Ec in *. cbn [top_b] in I1, A4.
  cbn [inv_cps] in I8. destruct I8 as (K & Q2 & Q3 & Q4 & Q5 & _).
  pose proof (k_kinds _ _ K) as FK. pose proof (k_words _ _ K) as (W2 & W3 & W5 & W6 & W7 & Wa).
  pose proof (k_below _ _ K) as KB. pose proof (k_base _ _ K) as KC. cbn [top_b] in KB, KC.
  cbn [exec]. unfold Delete_Choice_Point. cbn zeta. rewrite Eq. cbn [bind].
  eexists. split; [reflexivity|]. rewrite I1. unfold BB. cbn [restore_args Assign_B set_mem mem xs H E B HB1 CP CS TR A].
  rewrite A4, (HB_of _ _ _ _ _ _ _ P6).
  split.
  { unfold gupd. rewrite Ec. unfold restore_args, Assign_B.
    constructor; cbn [mem xs H E B HB1 CP CS TR A kd envs cps nxt top_b c_p c_H]; rewrite ?A4; auto.
    - apply (k_H _ _ K).
    - apply (k_E _ _ K).
    - eapply ktrunc_bounded. apply (k_bounded _ _ K).
    - eapply envs_ok_change; [apply (k_envs _ _ K)|]. intros b Hb Kb. split; [|auto].
      apply ktrunc_Ctl; auto. rewrite ltop_max. lia.
    - apply inv_cps_trunc; [exact P6|]. rewrite ltop_max. cbn [top_b]. lia.
    - intros c' I; apply I9; cbn; auto. }
  split; [exact P5|]. repeat (split; [reflexivity|]).
  intros i Hi. destruct (Z.leb_spec 0 i); [|lia]. destruct (Z.ltb_spec i (Z.of_nat (c_ar X c))); [|lia]. cbn [andb].
  rewrite P5; [apply Wa; lia|]. right. replace (c_p X c - 8 - i) with (c_p X c - (8 + i)) by lia.
  rewrite FK by lia. destruct (Z.eqb_spec (8 + i) 1), (Z.eqb_spec (8 + i) 4); try lia. reflexivity.
Qed.

(** ** cut *)
Lemma cps_from_split b cs : In b (map (c_p X) cs) ->
  exists cs1 c cs2, cs = cs1 ++ c :: cs2 /\ c_p X c = b /\ cps_from X b cs = c :: cs2 /\ ~ In b (map (c_p X) cs1).
Proof.
  induction cs as [|c cs IH]; cbn; [intros []|]. intros I.
  destruct (Z.eqb_spec (c_p X c) b) as [Eb|N].
  - exists [], c, cs. cbn. auto.
  - destruct IH as (cs1 & c1 & cs2 & -> & Eb & Ef & Ni); [destruct I; [congruence|auto]|].
    exists (c :: cs1), c1, cs2. cbn. repeat split; auto. intros [?|?]; auto.
Qed.

Lemma Inv_cut g s b : Inv g s -> In b (map (c_p X) (cps X g)) ->
  Inv (gupd X LSSA g s (OCut X b) (Cut X s b)) (Cut X s b).
Proof.
  intros [I1 I2 I3 I4 I5 I6 I7 I8 I9] Ib.
  destruct (cps_from_split _ _ Ib) as (cs1 & c & cs2 & Ec & Eb & Ef & _).
  assert (Q : inv_cps (mem X s) (xs X s) (TR X s) (kd X g) (H X s) (c :: cs2)).
  { rewrite Ec in I8. eapply inv_cps_suffix. exact I8. }
  unfold gupd, Cut, Assign_B. rewrite Ef.
  constructor; cbn [mem xs H E B HB1 CP CS TR A kd envs cps nxt top_b c_p c_H]; auto.
  - rewrite <- Eb. eapply HB_of. exact Q.
  - destruct Q as (K & _). pose proof (k_E _ _ K). lia.
  - eapply ktrunc_bounded. exact I6.
  - eapply envs_ok_change; [exact I7|]. intros a Ha Ka. split; auto. apply ktrunc_Ctl; auto. rewrite ltop_max. lia.
  - apply inv_cps_trunc; auto. rewrite ltop_max. cbn [top_b]. lia.
  - intros c' I. apply I9. rewrite Ec. apply in_or_app. now right.
Qed.

(** ** soft cut *)
Lemma cps_sorted m x tr k h c cs : inv_cps m x tr k h (c :: cs) -> forall c', In c' cs -> c_p X c' < c_p X c.
Proof.
  intros (K & Q2 & Q3 & Q4 & Q5 & es & P1 & P2 & P3 & P4 & P5 & P6) c' I.
  destruct (inv_cps_all _ _ _ _ _ _ P6 c' I) as (_ & _ & L & _). pose proof (k_below _ _ K). lia.
Qed.

Lemma soft_loop cs2 : forall fuel cs1 m x tr k h c kill, inv_cps m x tr k h (cs1 ++ c :: cs2) ->
  c_p X c <> kill -> (Z.to_nat (c_p X c - LSSA) <= fuel)%nat -> c_p X (last cs2 c) < kill ->
  exists m', soft_cut_loop fuel m (c_p X c) kill = Ret m' /\
    inv_cps m' x tr k h (cs1 ++ c :: cps_without X kill cs2) /\
    (forall a, m' a = m a \/ exists c', In c' (c :: cs2) /\ a = c_p X c' - 4).
Proof.
  induction cs2 as [|c2 cs2 IH]; intros fuel cs1 m x tr k h c kill Q N Lf Lk.
  - cbn [last] in Lk. assert (Q1 : inv_cps m x tr k h [c]) by (eapply inv_cps_suffix; exact Q).
    assert (Q2 := Q1). cbn [inv_cps] in Q2. destruct Q2 as (K & _ & _ & _ & Q5 & _). cbn [top_b] in Q5.
    pose proof (k_below _ _ K) as KB. cbn [top_b] in KB.
    destruct fuel as [|fuel]; [lia|]. cbn [soft_cut_loop]. unfold BB. rewrite Q5.
    destruct (Z.eqb_spec LSSA kill); [lia|]. destruct (Z.ltb_spec (c_p X c) kill); [|lia].
    exists m. cbn [cps_without]. auto.
  - assert (Q1 : inv_cps m x tr k h (c :: c2 :: cs2)) by (eapply inv_cps_suffix; exact Q).
    assert (Q2 := inv_cps_skip _ _ _ _ _ _ _ _ Q1).
    assert (T := Q1). cbn [inv_cps] in T. destruct T as (K & _ & _ & _ & Q5 & _). cbn [top_b] in Q5.
    pose proof (k_below _ _ K) as KB. pose proof (k_base _ _ K) as KC. cbn [top_b] in KB, KC.
    destruct fuel as [|fuel]; [lia|]. cbn [soft_cut_loop]. unfold BB. rewrite Q5.
    cbn [cps_without]. destruct (Z.eqb_spec (c_p X c2) kill) as [Ek|Nk].
    + exists (upd m (c_p X c - 4) (m (kill - 4))). split; [reflexivity|].
      assert (T := Q2). cbn [inv_cps] in T. destruct T as (K2 & _ & _ & _ & Q6 & _).
      split.
      * rewrite <- Ek, Q6. eapply inv_cps_remove; [exact Q|]. apply (k_base _ _ K2).
      * intros a. unfold upd. destruct (Z.eqb_spec a (c_p X c - 4)); auto. right. exists c. cbn. auto.
    + destruct (Z.ltb_spec (c_p X c) kill) as [Lc|Lc].
      * exists m. split; [reflexivity|]. split; [|auto].
        assert (Nin : forall cs, (forall c', In c' cs -> c_p X c' < kill) -> cps_without X kill cs = cs).
        { induction cs as [|c' cs IHc]; intros L; cbn; auto. pose proof (L c' ltac:(left; auto)).
          destruct (Z.eqb_spec (c_p X c') kill); [lia|]. rewrite IHc; auto. intros; apply L; now right. }
        rewrite Nin; [exact Q|]. intros c' I. pose proof (cps_sorted _ _ _ _ _ _ _ Q2 c' I). lia.
      * replace (cs1 ++ c :: c2 :: cs2) with ((cs1 ++ [c]) ++ c2 :: cs2) in Q by (rewrite <- app_assoc; reflexivity).
        destruct (IH fuel (cs1 ++ [c]) m x tr k h c2 kill Q Nk ltac:(lia)) as (m' & E1 & E2 & E3).
        { cbn [last] in Lk. destruct cs2; auto. erewrite (last_indep). exact Lk. }
        exists m'. split; [exact E1|]. split; [rewrite <- app_assoc in E2; exact E2|].
        intros a. destruct (E3 a) as [?|(c' & I & ->)]; auto. right. exists c'. split; auto. now right.
Qed.

Lemma Inv_soft_cut g s b c cs : Inv g s -> rev (cps X g) = c :: cs -> c_p X c < b ->
  exists s', exec X call LSSA s (OSoftCut X b) = Ret s' /\ Inv (gupd X LSSA g s (OSoftCut X b) s') s' /\
    TR X s' = TR X s /\ xs X s' = xs X s /\ H X s' = H X s /\ E X s' = E X s /\
    forall a, kd X g a = Some Data \/ kd X g a = Some Ctl -> mem X s' a = mem X s a.
Proof.
  intros I Er Lb.
  assert (El : cps X g = rev cs ++ [c]) by (rewrite <- (rev_involutive (cps X g)), Er; reflexivity).
  destruct I as [I1 I2 I3 I4 I5 I6 I7 I8 I9].
  destruct (cps X g) as [|c0 cs0] eqn:Ec; [destruct (rev cs); discriminate|].
  assert (Lst : last cs0 c0 = c).
  { assert (Lq : last (c0 :: cs0) c = c) by (rewrite El; apply last_last).
    destruct cs0 as [|c1 cs0]; [exact Lq|]. cbn [last] in Lq |- *. destruct cs0; auto.
    rewrite <- Lq. apply last_indep. }
  cbn [top_b] in I1. cbn [exec]. unfold Soft_Cut. rewrite I1.
  destruct (Z.eqb_spec (c_p X c0) b) as [Eb|Nb].
  - destruct cs0 as [|c1 cs0]; [cbn in Lst; subst; lia|].
    eexists. split; [reflexivity|].
    assert (Q1 := inv_cps_skip _ _ _ _ _ _ _ _ I8).
    assert (T := I8). cbn [inv_cps] in T. destruct T as (K & _ & _ & _ & Q5 & _). cbn [top_b] in Q5.
    pose proof (k_base _ _ K) as KC. cbn [top_b] in KC.
    unfold gupd, Assign_B, BB. cbn [mem xs H E B HB1 CP CS TR A]. rewrite Ec. cbn [cps_without].
    destruct (Z.eqb_spec (c_p X c0) b); [|congruence]. rewrite Q5.
    split; [|auto].
    constructor; cbn [mem xs H E B HB1 CP CS TR A kd envs cps nxt top_b c_p c_H]; auto.
    + eapply HB_of. exact Q1.
    + eapply ktrunc_bounded. exact I6.
    + eapply envs_ok_change; [exact I7|]. intros a Ha Ka. split; auto. apply ktrunc_Ctl; auto. rewrite ltop_max. lia.
    + apply inv_cps_trunc; auto. rewrite ltop_max. cbn [top_b]. lia.
    + intros c' I. apply I9. now right.
  - destruct (soft_loop cs0 (Z.to_nat (c_p X c0 - LSSA)) [] (mem X s) _ _ _ _ c0 b I8 Nb ltac:(lia) ltac:(rewrite Lst; exact Lb))
      as (m' & E1 & E2 & E3).
    cbn [app] in E2. rewrite E1. cbn [bind]. eexists. split; [reflexivity|].
    assert (Km : forall a, kd X g a = Some Data \/ kd X g a = Some Ctl -> m' a = mem X s a).
    { intros a Ha. destruct (E3 a) as [Ea|(c' & Ic & ->)]; auto. exfalso.
      destruct (inv_cps_all _ _ _ _ _ _ I8 c' Ic) as (_ & L2 & _).
      destruct (inv_cps_ok _ _ _ _ _ _ _ I8 Ic) as (cs' & K).
      pose proof (L2 _ _ (k_kinds _ _ K 4 ltac:(lia))) as Kx. cbn in Kx. destruct Ha; congruence. }
    unfold gupd, set_mem. cbn [mem xs H E B HB1 CP CS TR A]. rewrite Ec. cbn [cps_without].
    destruct (Z.eqb_spec (c_p X c0) b); [congruence|].
    split; [|auto 10].
    constructor; cbn [mem xs H E B HB1 CP CS TR A kd envs cps nxt top_b c_p c_H]; auto.
    + eapply ktrunc_bounded. exact I6.
    + eapply envs_ok_change; [exact I7|]. intros a Ha Ka. split; [|auto]. apply ktrunc_Ctl; auto. rewrite ltop_max. lia.
    + apply inv_cps_trunc; auto. rewrite ltop_max. cbn [top_b]. lia.
    + intros c' [->|I]; [apply I9; now left|]. apply I9. right.
      clear -I. induction cs0 as [|c1 cs0 IH]; cbn in *; auto. destruct (c_p X c1 =? b); cbn in I; intuition.
Qed.

(** ** environments *)
Lemma Inv_allocate g s n : Inv g s -> Inv (gupd X LSSA g s (OAllocate X n) (Allocate X s n)) (Allocate X s n).
Proof.
  intros [I1 I2 I3 I4 I5 I6 I7 I8 I9]. unfold gupd, Allocate, ENVIR_STATIC_SIZE.
  pose proof (Local_Top_max s) as Lt. set (cur := Local_Top X s + 2 + Z.of_nat n) in *.
  assert (Ne : forall a v, kd X g a = Some v -> LSSA <= a -> a < Local_Top X s).
  { intros a v Ka La. apply I6 in Ka. rewrite ltop_max in Ka. lia. }
  constructor; cbn [mem xs H E B HB1 CP CS TR A kd envs cps nxt] in *; auto; try lia.
  - intros a v. unfold kset. rewrite ltop_max.
    destruct (Z.eqb_spec a (cur - 2)); [lia|]. destruct (Z.eqb_spec a (cur - 1)); [lia|].
    intros Ka. apply I6 in Ka. rewrite ltop_max in Ka. lia.
  - cbn [envs_ok e_adr e_n e_cp e_prev]. unfold kset.
    destruct (Z.eqb_spec (cur - 1) (cur - 2)); [lia|]. rewrite !Z.eqb_refl.
    split; [reflexivity|]. split; [lia|]. split; [lia|]. split; [lia|]. split; [reflexivity|]. split; [reflexivity|].
    split; [rewrite upd_other by lia; apply upd_same|]. split; [apply upd_same|].
    eapply envs_ok_change; [exact I7|]. intros a Ha Ka. pose proof (Ne _ _ Ka ltac:(lia)).
    destruct (Z.eqb_spec a (cur - 2)); [lia|]. destruct (Z.eqb_spec a (cur - 1)); [lia|]. split; auto.
    rewrite !upd_other by lia. reflexivity.
  - apply (inv_cps_mono _ _ _ (kd X g) (H X s)).
    + refine (inv_cps_free (fun b => Local_Top X s <= b) _ _ _ _ _ _ _ _ _ I8).
      * intros c a Ic La. refine (cps_none_above _ _ _ _ _ _ _ I8 _ _ c Ic); lia.
      * intros b Nb. rewrite !upd_other by lia. reflexivity.
    + destruct (cps X g) as [|c cs]; auto. cbn [inv_cps] in I8. destruct I8 as (_ & Q2 & Q3 & _). split; [|lia].
      intros a w Ka. unfold kset. apply Q3 in Ka. assert (LSSA <= a -> a < Local_Top X s) by (intros; eapply Ne; eauto).
      destruct (Z.eqb_spec a (cur - 2)); [lia|]. destruct (Z.eqb_spec a (cur - 1)); [lia|]. exact Ka.
Qed.

Lemma Inv_deallocate g s : Inv g s -> envs X g <> [] ->
  Inv (gupd X LSSA g s (ODeallocate X) (Deallocate X s)) (Deallocate X s).
Proof.
  intros [I1 I2 I3 I4 I5 I6 I7 I8 I9] Ne. unfold gupd, Deallocate.
  destruct (envs X g) as [|en es] eqn:Ee; [congruence|]. cbn [envs_ok tl] in *.
  destruct I7 as (Ea & Q1 & Q2 & Q3 & Q4 & Q5 & Q6 & Q7 & Q8).
  constructor; cbn [mem xs H E B HB1 CP CS TR A kd envs cps nxt] in *; rewrite ?Q7; auto; try lia.
  - eapply ktrunc_bounded. exact I6.
  - eapply envs_ok_change; [exact Q8|]. intros a Ha Ka. split; auto. apply ktrunc_Ctl; auto. rewrite ltop_max. lia.
  - apply inv_cps_trunc; auto. rewrite ltop_max. lia.
Qed.

Lemma Inv_inity g s y v en es : Inv g s -> envs X g = en :: es -> 0 <= y < e_n en -> kd X g (e_adr en - 3 - y) = None ->
  Inv (Gh X (kset (kd X g) (E X s - 3 - y) Data) (envs X g) (cps X g) (nxt X g))
    (set_mem X s (upd (mem X s) (E X s - 3 - y) v)).
Proof.
  intros [I1 I2 I3 I4 I5 I6 I7 I8 I9] Ee Hy Kn. unfold set_mem.
  assert (Ea : E X s = e_adr en /\ LSSA <= E X s - 3 - y).
  { rewrite Ee in I7. cbn [envs_ok] in I7. lia. }
  destruct Ea as [Ea La]. rewrite <- Ea in Kn. set (a := E X s - 3 - y) in *.
  constructor; cbn [mem xs H E B HB1 CP CS TR A kd envs cps nxt] in *; auto; try lia.
  - intros b w. unfold kset. rewrite ltop_max. destruct (Z.eqb_spec b a); [lia|].
    intros Kb. apply I6 in Kb. rewrite ltop_max in Kb. lia.
  - eapply envs_ok_change; [exact I7|]. intros b Hb Kb. unfold kset.
    destruct (Z.eqb_spec b a); [congruence|]. split; auto. now apply upd_other.
  - apply (inv_cps_mono _ _ _ (kd X g) (H X s)).
    + refine (inv_cps_free (fun b => b = a) _ _ _ _ _ _ _ _ _ I8).
      * intros c b Ic ->. destruct (inv_cps_all _ _ _ _ _ _ I8 c Ic) as (_ & L2 & _).
        destruct (c_kd X c a) as [w|] eqn:Ek; auto. apply L2 in Ek. congruence.
      * intros b Nb. rewrite upd_other by auto. reflexivity.
    + destruct (cps X g) as [|c cs]; auto. cbn [inv_cps] in I8. destruct I8 as (_ & Q2 & Q3 & _). split; [|lia].
      intros b w Kb. unfold kset. apply Q3 in Kb. destruct (Z.eqb_spec b a); [congruence|]. exact Kb.
Qed.

(** ** creating a choice point *)
Lemma Inv_create g s alt ar : Inv g s ->
  Inv (gupd X LSSA g s (OCreate X alt ar) (Create_Choice_Point X s alt ar)) (Create_Choice_Point X s alt ar).
Proof.
  intros [I1 I2 I3 I4 I5 I6 I7 I8 I9]. unfold gupd, Create_Choice_Point, CHOICE_STATIC_SIZE.
  pose proof (Local_Top_max s) as Lt. set (cur := Local_Top X s + 7 + Z.of_nat ar) in *. cbn zeta.
  set (m0 := upd _ (cur - 7) (CS X s)).
  set (m' := fold_left _ (seq 0 ar) m0).
  assert (Fr : forall b, b < cur - 7 - Z.of_nat ar \/ cur <= b -> m' b = mem X s b).
  { intros b Hb. unfold m'. rewrite args_words.
    replace ((cur - 8 - Z.of_nat ar <? b) && (b <=? cur - 8)) with false.
    - unfold m0. rewrite !upd_other by lia. reflexivity.
    - symmetry. apply andb_false_iff. rewrite Z.ltb_ge, Z.leb_gt. lia. }
  assert (Fw : forall i, 1 <= i <= 7 -> m' (cur - i) = m0 (cur - i)).
  { intros i Hi. unfold m'. rewrite args_words. destruct (Z.leb_spec (cur - i) (cur - 8)); [lia|]. now rewrite andb_false_r. }
  assert (Fa : forall i, 0 <= i < Z.of_nat ar -> m' (cur - 8 - i) = A X s i).
  { intros i Hi. unfold m'. rewrite args_words.
    destruct (Z.leb_spec (cur - 8 - i) (cur - 8)); [|lia].
    destruct (Z.ltb_spec (cur - 8 - Z.of_nat ar) (cur - 8 - i)); [|lia]. cbn [andb]. f_equal. lia. }
  clearbody m'.
  assert (Ne : forall a v, kd X g a = Some v -> LSSA <= a -> a < Local_Top X s).
  { intros a v Ka La. apply I6 in Ka. rewrite ltop_max in Ka. lia. }
  assert (Kf : forall a v, kd X g a = Some v -> frame_kd (kd X g) cur ar a = Some v).
  { intros a v Ka. unfold frame_kd. pose proof (Ne _ _ Ka).
    destruct (Z.leb_spec (cur - 7 - Z.of_nat ar) a); cbn; auto. lia. }
  assert (Bd : bounded (frame_kd (kd X g) cur ar) (H X s) cur).
  { intros a v. unfold frame_kd.
    destruct (Z.leb_spec (cur - 7 - Z.of_nat ar) a), (Z.ltb_spec a cur); cbn; try (intros Ka; apply I6 in Ka; rewrite ltop_max in Ka; lia).
    intros _. right. lia. }
  assert (En : envs_ok m' (frame_kd (kd X g) cur ar) (envs X g) (E X s)).
  { eapply envs_ok_change; [exact I7|]. intros a Ha Ka. split; [now apply Kf|]. apply Fr. pose proof (Ne _ _ Ka). lia. }
  constructor; cbn [mem xs H E B HB1 CP CS TR A kd envs cps nxt top_b c_p c_H] in *; auto; try lia.
  - intros a v Ka. rewrite ltop_max. apply Bd in Ka. lia.
  - cbn [inv_cps c_p c_H c_kd c_alt c_tr c_x c_mem].
    split.
    { constructor; cbn [c_p c_H c_kd c_alt c_tr c_x c_mem c_ar c_E c_envs]; auto; try lia.
      - intros i Hi. cbn [c_p c_ar c_kd] in *. unfold frame_kd.
        destruct (Z.leb_spec (cur - 7 - Z.of_nat ar) (cur - i)); [|lia]. destruct (Z.ltb_spec (cur - i) cur); [|lia]. cbn [andb].
        destruct (Z.eqb_spec (cur - i) (cur - 1)), (Z.eqb_spec (cur - i) (cur - 4)), (Z.eqb_spec i 1), (Z.eqb_spec i 4); cbn; auto; lia.
      - unfold frame_words. cbn [c_p c_H c_kd c_alt c_tr c_x c_mem c_ar c_E c_envs c_CP c_CS c_A]. cbn zeta.
        rewrite !Fw by lia. unfold m0.
        split; [rewrite !upd_other by lia; apply upd_same|].
        split; [rewrite !upd_other by lia; apply upd_same|].
        split; [rewrite !upd_other by lia; apply upd_same|].
        split; [rewrite !upd_other by lia; apply upd_same|].
        split; [apply upd_same|]. exact Fa.
      - intros a Ha. unfold frame_kd. destruct (Z.leb_spec (cur - 7 - Z.of_nat ar) a); [|lia].
        destruct (Z.ltb_spec a cur); [|lia]. cbn. destruct ((a =? cur - 1) || (a =? cur - 4)); discriminate. }
    split; [lia|]. split; [apply kle_refl|].
    split; [rewrite Fw by lia; unfold m0; rewrite !upd_other by lia; apply upd_same|].
    split; [rewrite Fw by lia; unfold m0; rewrite !upd_other by lia; rewrite upd_same; exact I1|].
    exists []. cbn [flat map concat app undo undox].
    split; [reflexivity|]. split; [constructor|]. split; [intros e a []|]. split; [reflexivity|].
    split; [auto|].
    apply (inv_cps_mono _ _ _ (kd X g) (H X s)).
    + refine (inv_cps_free (fun b => Local_Top X s <= b) _ _ _ _ _ _ _ _ _ I8).
      * intros c a Ic La. refine (cps_none_above _ _ _ _ _ _ _ I8 _ _ c Ic); lia.
      * intros b Nb. symmetry. apply Fr. lia.
    + destruct (cps X g) as [|c cs]; auto. cbn [inv_cps] in I8. destruct I8 as (_ & Q2 & Q3 & _). split; [|lia].
      intros a w Ka. apply Kf. auto.
  - intros c [<-|I]; cbn; [lia|]. apply I9 in I. lia.
Qed.

(** ** every legal step *)
Theorem exec_inv g s o : Inv g s -> legal X call LSSA g s o ->
  exists s', exec X call LSSA s o = Ret s' /\ Inv (gupd X LSSA g s o s') s'.
Proof.
  intros I L. destruct o as [v|a v|a v|a v|a vs|f args x|a|n| |y v|i v|v|v|alt ar|alt ar|ar|b|b]; cbn [exec legal] in *.
  - eexists. split; [reflexivity|]. now apply Inv_push.
  - eexists. split; [reflexivity|]. now apply Inv_bind.
  - eexists. split; [reflexivity|]. cbn [gupd]. unfold Bind_OV. destruct (Word_Needs_Trailing X LSSA s a) eqn:Wn.
    + refine (Inv_trailed g s (EOV a (mem X s a)) (upd (mem X s) a v) (xs X s) I Logic.I _ _ _ eq_refl); cbn [touches undo1].
      * intros b ->. exact L.
      * intros b Nb. now apply upd_other.
      * intros b. now apply upd_upd_same.
    + now apply Inv_untrailed.
  - eexists. split; [reflexivity|]. cbn [gupd].
    refine (Inv_trailed g s (EOV a (mem X s a)) (upd (mem X s) a v) (xs X s) I Logic.I _ _ _ eq_refl); cbn [touches undo1].
    + intros b ->. exact L.
    + intros b Nb. now apply upd_other.
    + intros b. now apply upd_upd_same.
  - destruct L as [Lv L]. eexists. split; [reflexivity|]. cbn [gupd].
    assert (Et : Trail_MV (mem X s) a (length vs) = enc (EMV a (get_list (mem X s) a (length vs)))).
    { unfold Trail_MV. cbn [enc]. now rewrite get_list_length. }
    unfold push_tr, set_mem. cbn [mem xs H E B HB1 CP CS TR A STAMP]. rewrite Et.
    refine (Inv_trailed g s (EMV a (get_list (mem X s) a (length vs))) (upd_list (mem X s) a vs) (xs X s) I _ _ _ _ eq_refl); cbn [touches undo1 ent_ok].
    + intros Q. apply (f_equal (@length Z)) in Q. rewrite get_list_length in Q. destruct vs; [congruence|discriminate].
    + rewrite get_list_length. intros b Hb. specialize (L (Z.to_nat (b - a)) ltac:(lia)).
      replace (a + Z.of_nat (Z.to_nat (b - a))) with b in L by lia. exact L.
    + rewrite get_list_length. intros b Nb. apply upd_list_other. lia.
    + intros b. destruct (Z_le_dec a b); [destruct (Z_lt_dec b (a + Z.of_nat (length vs)))|].
      * rewrite <- (upd_list_get (length vs) (mem X s) a b). apply upd_list_in. rewrite get_list_length. lia.
      * rewrite !upd_list_other by (rewrite ?get_list_length; lia). reflexivity.
      * rewrite !upd_list_other by (rewrite ?get_list_length; lia). reflexivity.
  - destruct L as [La L]. eexists. split; [reflexivity|]. cbn [gupd].
    refine (Inv_trailed g s (EFC f args) (mem X s) x I Logic.I _ _ _ L); cbn [touches undo1]; tauto.
  - destruct L as (L1 & L2 & L3 & L4). eexists. split; [reflexivity|]. cbn [gupd]. unfold Globalize.
    pose proof (i_H _ _ I) as IH0. apply Inv_bind; [now apply Inv_push|..]; cbn [kd push_H mem].
    + unfold kset. destruct (Z.eqb_spec a (H X s)); auto.
    + rewrite upd_other by lia. exact L3.
  - eexists. split; [reflexivity|]. now apply Inv_allocate.
  - eexists. split; [reflexivity|]. now apply Inv_deallocate.
  - eexists. split; [reflexivity|]. destruct (envs X g) as [|en es] eqn:Ee; [destruct L|]. destruct L as [L1 L2].
    cbn [gupd]. eapply Inv_inity; eauto.
  - eexists. split; [reflexivity|]. cbn [gupd]. destruct I; constructor; auto.
  - eexists. split; [reflexivity|]. cbn [gupd]. destruct I; constructor; auto.
  - eexists. split; [reflexivity|]. cbn [gupd]. destruct I; constructor; auto.
  - eexists. split; [reflexivity|]. now apply Inv_create.
  - destruct (cps X g) as [|c cs] eqn:Ec; [destruct L|]. subst ar.
    destruct (Inv_update g s alt c cs I Ec) as (s' & E1 & E2 & _). eauto.
  - destruct (cps X g) as [|c [|c2 cs]] eqn:Ec; [destruct L..|]. subst ar.
    destruct (Inv_delete g s c c2 cs I Ec) as (s' & E1 & E2 & _). eauto.
  - eexists. split; [reflexivity|]. now apply Inv_cut.
  - destruct L as (c & cs & L1 & L2). destruct (Inv_soft_cut g s b c cs I L1 L2) as (s' & E1 & E2 & _). eauto.
Qed.

Lemma start_inv g s : start X G0 LSSA g s -> Inv g s.
Proof.
  intros (E1 & E2 & E3 & E4 & ->). constructor; cbn [kd envs cps nxt top_b]; auto; try lia.
  - intros a v Q. discriminate.
  - exact I.
  - intros c [].
Qed.
Theorem reach_inv g s : reach X call G0 LSSA g s -> Inv g s.
Proof.
  intros (g0 & s0 & St & R). apply start_inv in St. remember (g0, s0) as p0 eqn:E0. remember (g, s) as p eqn:Ep.
  revert g s Ep. induction R as [|gs1 gs2 gs3 R IH St2]; intros g s Ep.
  - congruence.
  - inversion St2 as [g2 s2 o s3 L Ex E1 E2]. subst. inversion E2; subst.
    destruct (exec_inv g2 s2 o (IH eq_refl _ _ eq_refl) L) as (s' & Ex' & I'). rewrite Ex in Ex'. injection Ex' as <-. exact I'.
Qed.

(** ** history *)
Lemma same_choice_refl c : same_choice X c c. Proof. destruct c; reflexivity. Qed.
Lemma same_choice_trans c1 c2 c3 : same_choice X c1 c2 -> same_choice X c2 c3 -> same_choice X c1 c3.
Proof. unfold same_choice, set_alt. intros -> ->. destruct c1; reflexivity. Qed.

Lemma in_from b cs c : In c (cps_from X b cs) -> In c cs.
Proof. induction cs as [|c0 cs IH]; cbn; auto. destruct (c_p X c0 =? b); cbn; intuition. Qed.
Lemma in_without b cs c : In c (cps_without X b cs) -> In c cs.
Proof. induction cs as [|c0 cs IH]; cbn; auto. destruct (c_p X c0 =? b); cbn; intuition. Qed.

Lemma step_nxt gs1 gs2 : step X call LSSA gs1 gs2 -> (nxt X (fst gs1) <= nxt X (fst gs2))%nat.
Proof.
  intros St. inversion St as [g s o s' L Ex]; subst. cbn [fst].
  destruct o; cbn [gupd nxt]; auto; destruct (cps X g); cbn [nxt]; auto.
Qed.
Lemma step_history gs1 gs2 c : step X call LSSA gs1 gs2 -> In c (cps X (fst gs2)) ->
  (c_id X c < nxt X (fst gs1))%nat -> exists c', In c' (cps X (fst gs1)) /\ same_choice X c' c.
Proof.
  intros St. inversion St as [g s o s' L Ex]; subst. cbn [fst].
  assert (R : In c (cps X g) -> exists c', In c' (cps X g) /\ same_choice X c' c) by (intros I; exists c; split; [auto|apply same_choice_refl]).
  destruct o; cbn [gupd cps]; auto.
  - intros [<-|I]; cbn; [lia|auto].
  - destruct (cps X g) as [|c0 cs] eqn:Ec; [rewrite Ec; auto|]. cbn [cps]. intros [<-|I] _.
    + exists c0. split; [now left|]. reflexivity.
    + apply R. now right.
  - destruct (cps X g) as [|c0 cs] eqn:Ec; [rewrite Ec; auto|]. cbn [cps]. intros I _. apply R. now right.
  - intros I _. apply R. eapply in_from; eauto.
  - intros I _. apply R. eapply in_without; eauto.
Qed.
Lemma steps_nxt gs1 gs2 : steps X call LSSA gs1 gs2 -> (nxt X (fst gs1) <= nxt X (fst gs2))%nat.
Proof. induction 1 as [|gs1 gs2 gs3 R IH St]; auto. pose proof (step_nxt _ _ St). lia. Qed.
Lemma steps_history gs1 gs2 : steps X call LSSA gs1 gs2 -> forall c, In c (cps X (fst gs2)) ->
  (c_id X c < nxt X (fst gs1))%nat -> exists c', In c' (cps X (fst gs1)) /\ same_choice X c' c.
Proof.
  induction 1 as [gs|gs1 gs2 gs3 R IH St]; intros c I Lc.
  - exists c. split; auto. apply same_choice_refl.
  - pose proof (steps_nxt _ _ R). destruct (step_history _ _ c St I ltac:(lia)) as (c' & I' & Sc).
    assert (c_id X c' = c_id X c) by (rewrite Sc; reflexivity).
    destruct (IH c' I' ltac:(lia)) as (c'' & I'' & Sc'). exists c''. split; auto. eapply same_choice_trans; eauto.
Qed.
Lemma reach_steps g s g' s' : reach X call G0 LSSA g s -> steps X call LSSA (g, s) (g', s') -> reach X call G0 LSSA g' s'.
Proof.
  intros (g0 & s0 & St & R) R'. exists g0, s0. split; auto.
  remember (g, s) as p1. revert R. induction R' as [|p1 p2 p3 R1 IH St1]; intros R; auto.
  econstructor; [apply IH; auto|auto].
Qed.

(** ids decrease along the chain *)
Fixpoint ids_down (cs : list cp) : Prop :=
  match cs with [] => True | c :: cs' => (forall c', In c' cs' -> (c_id X c' < c_id X c)%nat) /\ ids_down cs' end.
Lemma ids_from b cs : ids_down cs -> ids_down (cps_from X b cs).
Proof. induction cs as [|c0 cs IH]; cbn; auto. intros [Q1 Q2]. destruct (c_p X c0 =? b); cbn; auto. Qed.
Lemma ids_without b cs : ids_down cs -> ids_down (cps_without X b cs).
Proof.
  induction cs as [|c0 cs IH]; cbn; auto. intros [Q1 Q2]. destruct (c_p X c0 =? b); cbn; auto.
  split; auto. intros c' I. apply Q1. eapply in_without; eauto.
Qed.
Lemma step_ids gs1 gs2 : step X call LSSA gs1 gs2 -> Inv (fst gs1) (snd gs1) ->
  ids_down (cps X (fst gs1)) -> ids_down (cps X (fst gs2)).
Proof.
  intros St I Q. inversion St as [g s o s' L Ex]; subst. cbn [fst snd] in *.
  destruct o; cbn [gupd cps]; auto.
  - cbn [ids_down c_id]. split; auto. apply (i_ids _ _ I).
  - destruct (cps X g) as [|c0 cs] eqn:Ec; [rewrite Ec; auto|]. cbn [cps ids_down set_alt c_id] in *. auto.
  - destruct (cps X g) as [|c0 cs] eqn:Ec; [rewrite Ec; auto|]. cbn [cps ids_down] in *. tauto.
  - now apply ids_from.
  - now apply ids_without.
Qed.
Lemma reach_ids g s : reach X call G0 LSSA g s -> ids_down (cps X g).
Proof.
  intros (g0 & s0 & St & R). remember (g0, s0) as p0 eqn:E0. remember (g, s) as p eqn:Ep.
  revert g s Ep. induction R as [|gs1 [g2 s2] gs3 R IH St2]; intros g s Ep.
  - subst. injection Ep as <- <-. destruct St as (_ & _ & _ & _ & ->). exact I.
  - specialize (IH E0 g2 s2 eq_refl). subst. apply (step_ids _ _ St2); auto. cbn.
    apply reach_inv. exists g0, s0. auto.
Qed.
Lemma ids_unique cs c c' : ids_down cs -> In c cs -> In c' cs -> c_id X c = c_id X c' -> c = c'.
Proof.
  induction cs as [|c0 cs IH]; [intros _ []|]. intros [Q1 Q2] I I' Eq.
  destruct I as [<-|I], I' as [<-|I']; auto; [apply Q1 in I'|apply Q1 in I]; lia.
Qed.
Lemma p_unique cs : forall m x tr k h c c', inv_cps m x tr k h cs -> In c cs -> In c' cs -> c_p X c = c_p X c' -> c = c'.
Proof.
  induction cs as [|c0 cs IH]; intros m x tr k h c c' Q I I' Eq; [destruct I|].
  pose proof (cps_sorted _ _ _ _ _ _ _ Q) as So.
  cbn [inv_cps] in Q. destruct Q as (K & Q2 & Q3 & Q4 & Q5 & es & P1 & P2 & P3 & P4 & P5 & P6).
  destruct I as [<-|I], I' as [<-|I']; auto; [apply So in I'; lia|apply So in I; lia|]. eapply IH; eauto.
Qed.

Lemma create_keeps g s alt ar s' a : Inv g s -> exec X call LSSA s (OCreate X alt ar) = Ret s' ->
  kd X g a = Some Data -> mem X s' a = mem X s a /\ kd X (gupd X LSSA g s (OCreate X alt ar) s') a = Some Data.
Proof.
  intros I Ex Ka. cbn [exec] in Ex. injection Ex as <-.
  unfold gupd, Create_Choice_Point, CHOICE_STATIC_SIZE. cbn zeta. cbn [mem B kd].
  pose proof (Local_Top_max s) as Lt. pose proof (i_bounded _ _ I a _ Ka) as Bd. rewrite ltop_max in Bd.
  pose proof (i_H _ _ I) as IH0. pose proof (i_Bpos _ _ I) as IB0.
  set (cur := Local_Top X s + 7 + Z.of_nat ar). split.
  - rewrite args_words. replace ((cur - 8 - Z.of_nat ar <? a) && (a <=? cur - 8)) with false.
    + rewrite !upd_other by lia. reflexivity.
    + symmetry. apply andb_false_iff. rewrite Z.ltb_ge, Z.leb_gt. lia.
  - unfold frame_kd. destruct (Z.leb_spec (cur - 7 - Z.of_nat ar) a); cbn; auto. lia.
Qed.
End Proofs.
