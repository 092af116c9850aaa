(** Arithmetic on ranges (fd_range.c:455-785, 1317-1683). *)
Require Import ZArith List Bool Lia Sorted.
Require Import Verif.Heap_Model Verif.FdRange_Model Verif.FdRange_Spec Verif.FdRange_Proofs Verif.FdRange_Set.
Import ListNotations.
Open Scope Z_scope.

Section R.
Variable sz : nat.
Hypothesis small : 64 * Z.of_nat sz <= 2 ^ 28.
Notation vmax := (vmax sz).
Ltac ints := unfold is_int, INT_MIN, INT_MAX, FdRange_Model.vmax in *; try lia.

Lemma inner_ok f : forall l v, vok sz v -> StronglySorted Z.lt l ->
  (forall b, In b l -> exists s, f b = Ret s /\ match s with Put x => 0 <= x <= vmax | _ => True end) ->
  (forall b b', In b l -> In b' l -> b < b' -> f b = Ret Stop -> f b' = Ret Stop) ->
  exists v', inner f l v = Ret v' /\ vok sz v' /\ forall x, vin v' x = true <-> vin v x = true \/ exists b, In b l /\ f b = Ret (Put x).
Proof.
  induction l as [|b l IH]; intros v V So H Mo; cbn [inner].
  - exists v. split; [reflexivity|]. split; [exact V|]. intros x. split; [now left|intros [Q|[b [[] _]]]; exact Q].
  - apply StronglySorted_inv in So. destruct So as [So Fo]. destruct (H b (or_introl eq_refl)) as [s [E Hs]]. rewrite E. cbn [bind].
    assert (H' : forall b0, In b0 l -> exists s, f b0 = Ret s /\ match s with Put x => 0 <= x <= vmax | _ => True end) by (intros; apply H; now right).
    assert (Mo' : forall b0 b', In b0 l -> In b' l -> b0 < b' -> f b0 = Ret Stop -> f b' = Ret Stop) by (intros b0 b' I1 I2; apply Mo; now right).
    destruct s as [y| |].
    + destruct (Set_ok sz small v y V Hs) as [v1 [Q1 [Q2 Q3]]]. rewrite Q1. cbn [bind]. destruct (IH v1 Q2 So H' Mo') as [v' [I1 [I2 I3]]]. exists v'. split; [exact I1|]. split; [exact I2|]. intros x. rewrite I3, Q3, orb_true_iff, Z.eqb_eq. split.
      * intros [[->|Q]|[b0 [B1 B2]]]; [right; exists b; split; [now left|exact E]|now left|right; exists b0; split; [now right|exact B2]].
      * intros [Q|[b0 [[<-|B1] B2]]]; [now left; right|left; left; congruence|right; exists b0; auto].
    + destruct (IH v V So H' Mo') as [v' [I1 [I2 I3]]]. exists v'. split; [exact I1|]. split; [exact I2|]. intros x. rewrite I3. split.
      * intros [Q|[b0 [B1 B2]]]; [now left|right; exists b0; split; [now right|exact B2]].
      * intros [Q|[b0 [[<-|B1] B2]]]; [now left|congruence|right; exists b0; auto].
    + exists v. split; [reflexivity|]. split; [exact V|]. intros x. split; [now left|]. intros [Q|[b0 [[<-|B1] B2]]]; [exact Q|congruence|]. rewrite Forall_forall in Fo. rewrite (Mo b b0 (or_introl eq_refl) (or_intror B1) (Fo b0 B1) E) in B2. discriminate.
Qed.
Lemma outer_ok body (P : Z -> Z -> Prop) : forall l v, vok sz v ->
  (forall a v, In a l -> vok sz v -> exists v', body a v = Ret v' /\ vok sz v' /\ forall x, vin v' x = true <-> vin v x = true \/ P a x) ->
  exists v', outer body l v = Ret v' /\ vok sz v' /\ forall x, vin v' x = true <-> vin v x = true \/ exists a, In a l /\ P a x.
Proof.
  induction l as [|a l IH]; intros v V H; cbn [outer].
  - exists v. split; [reflexivity|]. split; [exact V|]. intros x. split; [now left|intros [Q|[b [[] _]]]; exact Q].
  - destruct (H a v (or_introl eq_refl) V) as [v1 [E [V1 Q]]]. rewrite E. cbn [bind]. destruct (IH v1 V1) as [v' [I1 [I2 I3]]]; [intros; apply H; [now right|assumption]|]. exists v'. split; [exact I1|]. split; [exact I2|]. intros x. rewrite I3, Q. split.
    + intros [[Q1|Q1]|[b [B1 B2]]]; [now left|right; exists a; split; [now left|exact Q1]|right; exists b; split; [now right|exact B2]].
    + intros [Q1|[b [[<-|B1] B2]]]; [now left; left|now left; right|right; exists b; auto].
Qed.
(** the inner loops that stop when the result [g b] goes out of [0, vmax], [g] monotone *)
Lemma stop_loop g l v : vok sz v -> (forall b, In b (enum l) -> is_int (g b)) -> (forall b b', b < b' -> g b <= g b') -> (forall b, In b (enum l) -> 0 <= g b) ->
  exists v', inner (fun b => do x <- ck (g b); Ret (if vmax <? x then Stop else Put x)) (enum l) v = Ret v' /\ vok sz v' /\ forall x, vin v' x = true <-> vin v x = true \/ (x <= vmax /\ exists b, vin l b = true /\ x = g b).
Proof.
  intros V Bi Mo Po. destruct (enum_ok l) as [So Me]. destruct (inner_ok (fun b => do x <- ck (g b); Ret (if vmax <? x then Stop else Put x)) (enum l) v V So) as [v' [I1 [I2 I3]]].
  - intros b Ib. rewrite ck_ok by auto. cbn [bind]. eexists. split; [reflexivity|]. destruct (Z.ltb_spec vmax (g b)); [exact I|]. specialize (Po b Ib). lia.
  - intros b b' Ib Ib' L. rewrite !ck_ok by auto. cbn [bind]. specialize (Mo b b' L). destruct (Z.ltb_spec vmax (g b)), (Z.ltb_spec vmax (g b')); lia || (intros Q; congruence) || reflexivity.
  - exists v'. split; [exact I1|]. split; [exact I2|]. intros x. rewrite I3. split; (intros [Q|Q]; [now left|right]).
    + destruct Q as [b [B1 B2]]. rewrite ck_ok in B2 by auto. cbn [bind] in B2. destruct (Z.ltb_spec vmax (g b)); [discriminate|]. injection B2 as <-. split; [assumption|]. exists b. split; [now apply Me|reflexivity].
    + destruct Q as [B0 [b [B1 ->]]]. apply Me in B1. exists b. split; [exact B1|]. rewrite ck_ok by auto. cbn [bind]. destruct (Z.ltb_spec vmax (g b)); [lia|reflexivity].
Qed.
Lemma enum_range v x : vok sz v -> In x (enum v) -> 0 <= x <= vmax.
Proof. intros V I. apply (proj2 (enum_ok v)) in I. exact (vin_range _ _ _ V I). Qed.
Lemma Add_Vector_ok v v1 : vok sz v -> vok sz v1 ->
  exists v', Vector_Add_Vector sz v v1 = Ret v' /\ vok sz v' /\ forall x, vin v' x = true <-> x <= vmax /\ exists a b, vin v a = true /\ vin v1 b = true /\ x = a + b.
Proof.
  intros V V1. unfold Vector_Add_Vector. pose proof (proj2 (enum_ok v)) as Me.
  assert (Q := outer_ok (fun a => inner (fun b => do x <- ck (a + b); Ret (if vmax <? x then Stop else Put x)) (enum v1)) (fun a x => x <= vmax /\ exists b, vin v1 b = true /\ x = a + b) (enum v) (Vector_Empty sz) (proj1 (Empty_ok sz))).
  destruct Q as [v' [O1 [O2 O3]]].
  - intros a w Ia Vw. pose proof (enum_range v a V Ia). apply (stop_loop (fun b => a + b) v1 w Vw); [|intros; lia|]; intros b Ib; pose proof (enum_range v1 b V1 Ib); ints.
  - exists v'. split; [exact O1|]. split; [exact O2|]. intros x. rewrite O3, (proj2 (Empty_ok sz)). split.
    + intros [X|[a [Ia [B [b [Ib ->]]]]]]; [discriminate|]. split; [exact B|]. exists a, b. split; [now apply Me|auto].
    + intros [B [a [b [Ia [Ib ->]]]]]. right. exists a. split; [now apply Me|]. split; [exact B|]. exists b. auto.
Qed.
Lemma Mul_Vector_ok v v1 : is_int (vmax * vmax) -> vok sz v -> vok sz v1 ->
  exists v', Vector_Mul_Vector sz v v1 = Ret v' /\ vok sz v' /\ forall x, vin v' x = true <-> x <= vmax /\ exists a b, vin v a = true /\ vin v1 b = true /\ x = a * b.
Proof.
  intros Sq V V1. unfold Vector_Mul_Vector. pose proof (proj2 (enum_ok v)) as Me.
  assert (Q := outer_ok (fun a => inner (fun b => do x <- ck (a * b); Ret (if vmax <? x then Stop else Put x)) (enum v1)) (fun a x => x <= vmax /\ exists b, vin v1 b = true /\ x = a * b) (enum v) (Vector_Empty sz) (proj1 (Empty_ok sz))).
  destruct Q as [v' [O1 [O2 O3]]].
  - intros a w Ia Vw. pose proof (enum_range v a V Ia). apply (stop_loop (fun b => a * b) v1 w Vw).
    + intros b Ib. pose proof (enum_range v1 b V1 Ib). unfold is_int, INT_MIN, INT_MAX in *. assert (0 <= a * b <= vmax * vmax) by nia. lia.
    + intros; nia.
    + intros b Ib. pose proof (enum_range v1 b V1 Ib). nia.
  - exists v'. split; [exact O1|]. split; [exact O2|]. intros x. rewrite O3, (proj2 (Empty_ok sz)). split.
    + intros [X|[a [Ia [B [b [Ib ->]]]]]]; [discriminate|]. split; [exact B|]. exists a, b. split; [now apply Me|auto].
    + intros [B [a [b [Ia [Ib ->]]]]]. right. exists a. split; [now apply Me|]. split; [exact B|]. exists b. auto.
Qed.
Lemma Sub_Vector_ok v v1 : vok sz v -> vok sz v1 ->
  exists v', Vector_Sub_Vector sz v v1 = Ret v' /\ vok sz v' /\ forall x, vin v' x = true <-> 0 <= x /\ exists a b, vin v a = true /\ vin v1 b = true /\ x = a - b.
Proof.
  intros V V1. unfold Vector_Sub_Vector. pose proof (proj2 (enum_ok v)) as Me. destruct (enum_ok v1) as [So1 Me1].
  assert (Q := outer_ok (fun a => inner (fun b => do x <- ck (a - b); Ret (if x <? 0 then Stop else Put x)) (enum v1)) (fun a x => 0 <= x /\ exists b, vin v1 b = true /\ x = a - b) (enum v) (Vector_Empty sz) (proj1 (Empty_ok sz))).
  destruct Q as [v' [O1 [O2 O3]]].
  - intros a w Ia Vw. pose proof (enum_range v a V Ia). assert (Ck : forall b, In b (enum v1) -> ck (a - b) = Ret (a - b)) by (intros b Ib; pose proof (enum_range v1 b V1 Ib); apply ck_ok; ints).
    destruct (inner_ok (fun b => do x <- ck (a - b); Ret (if x <? 0 then Stop else Put x)) (enum v1) w Vw So1) as [w' [I1 [I2 I3]]].
    + intros b Ib. rewrite Ck by exact Ib. cbn [bind]. pose proof (enum_range v1 b V1 Ib). eexists. split; [reflexivity|]. destruct (Z.ltb_spec (a - b) 0); [exact I|lia].
    + intros b b' Ib Ib' L. rewrite !Ck by assumption. cbn [bind]. destruct (Z.ltb_spec (a - b) 0), (Z.ltb_spec (a - b') 0); lia || (intros Q; congruence) || reflexivity.
    + exists w'. split; [exact I1|]. split; [exact I2|]. intros x. rewrite I3. split; (intros [Q|Q]; [now left|right]).
      * destruct Q as [b [B1 B2]]. rewrite Ck in B2 by exact B1. cbn [bind] in B2. destruct (Z.ltb_spec (a - b) 0); [discriminate|]. injection B2 as <-. split; [assumption|]. exists b. split; [now apply Me1|reflexivity].
      * destruct Q as [B0 [b [B1 ->]]]. apply Me1 in B1. exists b. split; [exact B1|]. rewrite Ck by exact B1. cbn [bind]. destruct (Z.ltb_spec (a - b) 0); [lia|reflexivity].
  - exists v'. split; [exact O1|]. split; [exact O2|]. intros x. rewrite O3, (proj2 (Empty_ok sz)). split.
    + intros [X|[a [Ia [B [b [Ib ->]]]]]]; [discriminate|]. split; [exact B|]. exists a, b. split; [now apply Me|auto].
    + intros [B [a [b [Ia [Ib ->]]]]]. right. exists a. split; [now apply Me|]. split; [exact B|]. exists b. auto.
Qed.
Lemma Mod_Vector_ok v v1 : vok sz v -> vok sz v1 ->
  exists v', Vector_Mod_Vector sz v v1 = Ret v' /\ vok sz v' /\ forall x, vin v' x = true <-> exists a b, vin v a = true /\ vin v1 b = true /\ b <> 0 /\ x = Z.rem a b.
Proof.
  intros V V1. unfold Vector_Mod_Vector. pose proof (proj2 (enum_ok v)) as Me. destruct (enum_ok v1) as [So1 Me1].
  assert (Q := outer_ok (fun a => inner (fun b => Ret (if negb (b =? 0) then Put (Z.rem a b) else Skip)) (enum v1)) (fun a x => exists b, vin v1 b = true /\ b <> 0 /\ x = Z.rem a b) (enum v) (Vector_Empty sz) (proj1 (Empty_ok sz))).
  destruct Q as [v' [O1 [O2 O3]]].
  - intros a w Ia Vw. pose proof (enum_range v a V Ia).
    destruct (inner_ok (fun b => Ret (if negb (b =? 0) then Put (Z.rem a b) else Skip)) (enum v1) w Vw So1) as [w' [I1 [I2 I3]]].
    + intros b Ib. pose proof (enum_range v1 b V1 Ib). eexists. split; [reflexivity|]. destruct (Z.eqb_spec b 0); cbn [negb]; [exact I|]. pose proof (Z.rem_bound_pos a b ltac:(lia) ltac:(lia)). pose proof (Z.rem_le a b ltac:(lia) ltac:(lia)). lia.
    + intros b b' Ib Ib' L. destruct (Z.eqb_spec b 0); cbn [negb]; discriminate.
    + exists w'. split; [exact I1|]. split; [exact I2|]. intros x. rewrite I3. split; (intros [Q|Q]; [now left|right]).
      * destruct Q as [b [B1 B2]]. destruct (Z.eqb_spec b 0); cbn [negb] in B2; [discriminate|]. injection B2 as <-. exists b. split; [now apply Me1|auto].
      * destruct Q as [b [B1 [B2 ->]]]. apply Me1 in B1. exists b. split; [exact B1|]. destruct (Z.eqb_spec b 0); [contradiction|reflexivity].
  - exists v'. split; [exact O1|]. split; [exact O2|]. intros x. rewrite O3, (proj2 (Empty_ok sz)). split.
    + intros [X|[a [Ia [b [Ib [N ->]]]]]]; [discriminate|]. exists a, b. split; [now apply Me|auto].
    + intros [a [b [Ia [Ib [N ->]]]]]. right. exists a. split; [now apply Me|]. exists b. auto.
Qed.
Lemma Div_Vector_ok v v1 : vok sz v -> vok sz v1 ->
  exists v', Vector_Div_Vector sz v v1 = Ret v' /\ vok sz v' /\ forall x, vin v' x = true <-> (exists a b, vin v a = true /\ vin v1 b = true /\ b <> 0 /\ a = b * x) \/ (x = 0 /\ vin v 0 = true).
Proof.
  intros V V1. unfold Vector_Div_Vector. pose proof (proj2 (enum_ok v)) as Me. destruct (enum_ok v1) as [So1 Me1].
  assert (Q := outer_ok (fun a v => if a =? 0 then Vector_Set_Value v 0 else inner (fun b => Ret (if negb (b =? 0) && (Z.rem a b =? 0) then Put (Z.quot a b) else Skip)) (enum v1) v)
    (fun a x => (a = 0 /\ x = 0) \/ (a <> 0 /\ exists b, vin v1 b = true /\ b <> 0 /\ a = b * x)) (enum v) (Vector_Empty sz) (proj1 (Empty_ok sz))).
  destruct Q as [v' [O1 [O2 O3]]].
  - intros a w Ia Vw. pose proof (enum_range v a V Ia). destruct (Z.eqb_spec a 0) as [->|Na].
    + destruct (Set_ok sz small w 0 Vw ltac:(lia)) as [w' [Q1 [Q2 Q3]]]. exists w'. split; [exact Q1|]. split; [exact Q2|]. intros x. rewrite Q3, orb_true_iff, Z.eqb_eq. intuition congruence.
    + destruct (inner_ok (fun b => Ret (if negb (b =? 0) && (Z.rem a b =? 0) then Put (Z.quot a b) else Skip)) (enum v1) w Vw So1) as [w' [I1 [I2 I3]]].
      * intros b Ib. pose proof (enum_range v1 b V1 Ib). eexists. split; [reflexivity|]. destruct (Z.eqb_spec b 0); cbn [negb andb]; [exact I|]. destruct (Z.rem a b =? 0); [|exact I]. pose proof (Z.quot_pos a b ltac:(lia) ltac:(lia)). pose proof (Z.quot_le_upper_bound a b a ltac:(lia) ltac:(nia)). lia.
      * intros b b' Ib Ib' L. destruct (negb (b =? 0) && (Z.rem a b =? 0)); discriminate.
      * exists w'. split; [exact I1|]. split; [exact I2|]. intros x. rewrite I3. split; (intros [Q|Q]; [now left|right]).
        -- destruct Q as [b [B1 B2]]. right. split; [exact Na|]. destruct (Z.eqb_spec b 0); cbn [negb andb] in B2; [discriminate|]. destruct (Z.eqb_spec (Z.rem a b) 0); [|discriminate]. injection B2 as <-. exists b. split; [now apply Me1|]. split; [assumption|]. now apply Z.quot_exact.
        -- destruct Q as [[Q _]|[_ [b [B1 [B2 B3]]]]]; [contradiction|]. apply Me1 in B1. exists b. split; [exact B1|]. destruct (Z.eqb_spec b 0); [contradiction|]. cbn [negb andb]. rewrite B3. rewrite Z.mul_comm, Z.rem_mul, Z.quot_mul by assumption. reflexivity.
  - exists v'. split; [exact O1|]. split; [exact O2|]. intros x. rewrite O3, (proj2 (Empty_ok sz)). split.
    + intros [X|[a [Ia [[-> ->]|[N [b [Ib [Nb Q]]]]]]]]; [discriminate|right; split; [reflexivity|now apply Me]|]. left. exists a, b. split; [now apply Me|auto].
    + intros [[a [b [Ia [Ib [N Q]]]]]|[-> Q]]; right.
      * exists a. split; [now apply Me|]. destruct (Z.eq_dec a 0) as [->|Na]; [left; split; [reflexivity|nia]|]. right. split; [exact Na|]. exists b. auto.
      * exists 0. split; [now apply Me|]. now left.
Qed.

(** *** Ranges *)
Lemma conv junk r T : vok sz junk -> operand sz r T -> rmin r <= rmax r -> rmin r <= vmax ->
  exists s v, sparse_copy sz junk r = Ret s /\ vec s = Some v /\ rok sz s /\ vok sz v /\ rmin s <= rmax s /\ 0 <= rmin s /\ rmax s <= vmax /\ means sz s T /\
    (forall n, rin s n <-> vin v n = true) /\ (forall n, vin v n = true -> T n) /\ (forall n, T n -> extra_cstr s = false \/ n <= vmax -> vin v n = true) /\ vin v (rmin s) = true /\ vin v (rmax s) = true /\ (forall n, vin v n = true -> rmin s <= n <= rmax s) /\ (extra_cstr r = true -> extra_cstr s = true).
Proof.
  intros J [R [P [M [N _]]]] L Lv. destruct (sparse_copy_ok sz small junk r J R) as [s [v [S1 [S2 [S3 [S4 [S5 [S6 [S7 S8]]]]]]]]]. exists s, v. specialize (S4 T M). pose proof (rok_vec _ _ _ S3 S2) as V.
  assert (Ls : rmin s <= rmax s).
  { destruct (vec r) as [w|] eqn:E; [now rewrite (S7 w eq_refl)|]. destruct (S8 eq_refl) as [-> [-> _]]. lia. }
  destruct (rok_bounds _ s v S3 S2 Ls) as [B1 B2]. pose proof S3 as [_ [_ C]]. rewrite S2 in C. destruct C as [_ C]. destruct (C Ls) as [C1 [C2 C3]].
  assert (I : forall n, rin s n <-> vin v n = true) by (intros; now apply rok_rin with (sz := sz)).
  repeat (split; [assumption|]). split; [|split; [|repeat (split; [assumption|]); assumption]].
  - intros n Hn. pose proof (vin_range _ _ _ V Hn). apply (S4 n); [lia|right; lia|now apply I].
  - intros n Hn Hb. apply I. apply (S4 n); auto.
Qed.
Lemma empty_T r T : operand sz r T -> rmax r < rmin r -> forall n, ~ T n.
Proof. intros [R [P [M [N X]]]] L n Hn. apply (M n (N n Hn) (or_introl (X L))) in Hn. exact (rin_empty r n L Hn). Qed.
Lemma interval_T r T : operand sz r T -> vec r = None -> extra_cstr r = false /\ forall n, T n <-> rmin r <= n <= rmax r.
Proof.
  intros [R [P [M [N X]]]] E. pose proof R as [_ [_ C]]. rewrite E in C. split; [exact C|]. intros n. split.
  - intros Hn. apply (M n (N n Hn) (or_introl C)) in Hn. apply Hn.
  - intros Hn. apply (M n); [lia|now left|]. unfold rin. rewrite E. split; [exact Hn|exact I].
Qed.
Lemma set_to_empty_ok r T : rok sz r -> (forall n, ~ T n) -> rok sz (Set_To_Empty r) /\ means sz (Set_To_Empty r) T.
Proof.
  intros [A [B C]] N. split.
  - split; [exact A|]. split; [cbn; ints|]. cbn. destruct (vec r); [split; [apply C|ints]|exact C].
  - intros n Hn _. split; [intros [X _]; cbn in X; ints|intros X; now apply N in X].
Qed.
Lemma means_covers r T : means sz r T -> rok sz r -> (forall n, T n -> 0 <= n) -> (vec r = None \/ exists v, vec r = Some v) -> covers r T.
Proof.
  intros M R N _. split.
  - intros n Hn I. destruct (vec r) as [v|] eqn:E.
    + apply (M n Hn); [|exact I]. right. unfold rin in I. rewrite E in I. pose proof (vin_range _ _ _ (rok_vec _ _ _ R E) (proj2 I)). lia.
    + apply (M n Hn); [|exact I]. left. destruct R as [_ [_ C]]. now rewrite E in C.
  - intros E n Hn Tn. apply (M n Hn); auto.
Qed.
Theorem Add_Range_ok junk a r r1 T T1 : vok sz junk -> around_ok a -> operand sz r T -> operand sz r1 T1 -> is_int (rmax r + rmax r1) ->
  (vec r <> None \/ vec r1 <> None -> rmin r <= vmax /\ rmin r1 <= vmax) ->
  exists r', Range_Add_Range sz junk a r r1 = Ret r' /\ rok sz r' /\ means sz r' (lift Z.add T T1).
Proof.
  intros J A O O1 Bi Cv. unfold Range_Add_Range. destruct (Is_Empty r) eqn:Er.
  { apply empty_true in Er. exists r. split; [reflexivity|]. split; [apply O|]. intros n Hn _. pose proof (rin_empty r n Er). split; [tauto|]. intros [x [y [X _]]]. now apply (empty_T r T O Er) in X. }
  destruct (Is_Empty r1) eqn:Er1.
  { apply empty_true in Er1. eexists. split; [reflexivity|]. apply set_to_empty_ok; [apply O|]. intros n [x [y [_ [X _]]]]. now apply (empty_T r1 T1 O1 Er1) in X. }
  apply empty_false in Er, Er1.
  match goal with |- exists r', match vec r with Some _ => ?s | None => _ end = _ /\ _ => set (sparse := s) end.
  assert (S : vec r <> None \/ vec r1 <> None -> exists r', sparse = Ret r' /\ rok sz r' /\ means sz r' (lift Z.add T T1)).
  { intros Hv. destruct (Cv Hv) as [Cr Cr1]. unfold sparse.
    destruct (conv junk r T J O Er Cr) as [s [v [S1 [S2 [S3 [S4 [S5 [S6 [S7 [S8 [S9 [S10 [S11 [S12 [S13 [S14 _]]]]]]]]]]]]]]]].
    destruct (conv junk r1 T1 J O1 Er1 Cr1) as [t [w [U1 [U2 [U3 [U4 [U5 [U6 [U7 [U8 [U9 [U10 [U11 [U12 [U13 [U14 _]]]]]]]]]]]]]]]].
    rewrite S1. cbn [bind]. rewrite U1. cbn [bind]. unfold the_vec. rewrite S2, U2. destruct (Add_Vector_ok v w S4 U4) as [v' [V1 [V2 V3]]]. rewrite V1. cbn [bind]. rewrite !ck_ok by ints. cbn [bind extra_cstr rmin].
    assert (Me : forall e n, 0 <= n -> (extra_cstr s || (extra_cstr t || (vmax <? rmax s + rmax t)) = e) -> e = false \/ n <= vmax -> (vin v' n = true <-> lift Z.add T T1 n)).
    { intros e n Hn <- Hb. rewrite V3. split.
      - intros [Q [x [y [X1 [Y1 ->]]]]]. exists x, y. auto.
      - intros [x [y [X1 [Y1 ->]]]]. pose proof (proj1 (proj2 (proj2 (proj2 O))) x X1) as Px. pose proof (proj1 (proj2 (proj2 (proj2 O1))) y Y1) as Py. destruct Hb as [Hb|Hb].
        + apply orb_false_elim in Hb. destruct Hb as [Hb1 Hb2]. apply orb_false_elim in Hb2. destruct Hb2 as [Hb2 Hb3]. apply Z.ltb_ge in Hb3. pose proof (S11 x X1 (or_introl Hb1)) as X2. pose proof (U11 y Y1 (or_introl Hb2)) as Y2. pose proof (S14 x X2). pose proof (U14 y Y2). split; [lia|]. exists x, y. auto.
        + split; [exact Hb|]. exists x, y. split; [apply S11; [exact X1|right; lia]|]. split; [apply U11; [exact Y1|right; lia]|reflexivity]. }
    set (e := extra_cstr s || (extra_cstr t || (vmax <? rmax s + rmax t))) in *.
    destruct (e || (rmin s + rmin t <? 0)) eqn:Ec.
    - destruct (From_Vector_ok sz small a e (rmin s + rmin t) (rmax s + rmax t) v' A V2 ltac:(ints)) as [r' [F1 [F2 [F3 [F4 F5]]]]]. exists r'. split; [exact F1|]. split; [exact F4|]. intros n Hn Hb. rewrite F5. rewrite F3 in Hb. exact (Me e n Hn eq_refl Hb).
    - apply orb_false_elim in Ec. destruct Ec as [Ee _]. eexists. split; [reflexivity|]. assert (Hq : rmax s + rmax t <= vmax) by (unfold e in Ee; apply orb_false_elim in Ee; destruct Ee as [_ Ee]; apply orb_false_elim in Ee; destruct Ee as [_ Ee]; now apply Z.ltb_ge in Ee).
      assert (Rg : forall n, vin v' n = true -> rmin s + rmin t <= n <= rmax s + rmax t) by (intros n Q; apply V3 in Q; destruct Q as [_ [x [y [X1 [Y1 ->]]]]]; pose proof (S14 x X1); pose proof (U14 y Y1); lia).
      split.
      + split; [cbn; ints|]. split; [cbn; ints|]. cbn [vec rmin rmax]. split; [exact V2|]. intros _. split; [apply V3; split; [lia|]; exists (rmin s), (rmin t); auto|]. split; [apply V3; split; [lia|]; exists (rmax s), (rmax t); auto|exact Rg].
      + intros n Hn Hb. cbn [extra_cstr] in Hb. rewrite <- (Me e n Hn eq_refl Hb). unfold rin. cbn [rmin rmax vec]. split; [tauto|]. intros Q. split; [now apply Rg|exact Q]. }
  destruct (vec r) as [v|] eqn:E, (vec r1) as [v1|] eqn:E1; try (apply S; (left; congruence) || (right; congruence)).
  destruct (interval_T r T O E) as [X1 X2]. destruct (interval_T r1 T1 O1 E1) as [Y1 Y2]. pose proof O as [[Ra [Rb _]] [Rp _]]. pose proof O1 as [[Rd [Re _]] [Rq _]]. rewrite !ck_ok by ints. cbn [bind]. eexists. split; [reflexivity|]. split; [split; [cbn; ints|split; [cbn; ints|exact X1]]|].
  intros n Hn _. unfold rin, lift. cbn. split.
  - intros [Q _]. exists (Z.min (rmax r) (n - rmin r1)), (n - Z.min (rmax r) (n - rmin r1)). rewrite X2, Y2. lia.
  - intros [x [y [Q1 [Q2 ->]]]]. apply X2 in Q1. apply Y2 in Q2. split; [lia|exact I].
Qed.
(** on intervals the results are exact for all integers *)
Theorem Add_Intervals_ok junk a e e1 p q p1 q1 : p <= q -> p1 <= q1 -> is_int (p + p1) -> is_int (q + q1) ->
  exists r', Range_Add_Range sz junk a (Range e p q None) (Range e1 p1 q1 None) = Ret r' /\ forall n, rin r' n <-> exists x y, p <= x <= q /\ p1 <= y <= q1 /\ n = x + y.
Proof.
  intros L L1 B B1. unfold Range_Add_Range, Is_Empty. cbn [rmin rmax vec]. destruct (Z.ltb_spec q p); [lia|]. destruct (Z.ltb_spec q1 p1); [lia|]. rewrite !ck_ok by assumption. cbn [bind]. eexists. split; [reflexivity|]. intros n. unfold rin. cbn. split.
  - intros [Q _]. exists (Z.min q (n - p1)), (n - Z.min q (n - p1)). lia.
  - intros [x [y Q]]. split; [lia|exact I].
Qed.
Theorem Sub_Intervals_ok junk a e e1 p q p1 q1 : p <= q -> p1 <= q1 -> is_int (p - q1) -> is_int (q - p1) ->
  exists r', Range_Sub_Range sz junk a (Range e p q None) (Range e1 p1 q1 None) = Ret r' /\ forall n, rin r' n <-> exists x y, p <= x <= q /\ p1 <= y <= q1 /\ n = x - y.
Proof.
  intros L L1 B B1. unfold Range_Sub_Range, Is_Empty. cbn [rmin rmax vec]. destruct (Z.ltb_spec q p); [lia|]. destruct (Z.ltb_spec q1 p1); [lia|]. rewrite !ck_ok by assumption. cbn [bind]. eexists. split; [reflexivity|]. intros n. unfold rin. cbn. split.
  - intros [Q _]. exists (Z.min q (n + q1)), (Z.min q (n + q1) - n). lia.
  - intros [x [y Q]]. split; [lia|exact I].
Qed.
Theorem Sub_Range_ok junk a r r1 T T1 : vok sz junk -> around_ok a -> operand sz r T -> operand sz r1 T1 ->
  (vec r <> None \/ vec r1 <> None -> rmin r <= vmax /\ rmin r1 <= vmax) ->
  exists r', Range_Sub_Range sz junk a r r1 = Ret r' /\ rok sz r' /\ covers r' (lift Z.sub T T1).
Proof.
  intros J A O O1 Cv. unfold Range_Sub_Range. destruct (Is_Empty r) eqn:Er.
  { apply empty_true in Er. exists r. split; [reflexivity|]. split; [apply O|]. split; [intros n Hn X; now apply (rin_empty r n Er) in X|]. intros _ n Hn [x [y [X _]]]. now apply (empty_T r T O Er) in X. }
  destruct (Is_Empty r1) eqn:Er1.
  { apply empty_true in Er1. eexists. split; [reflexivity|]. destruct (set_to_empty_ok r (lift Z.sub T T1) (proj1 O)) as [X1 X2]; [intros n [x [y [_ [X _]]]]; now apply (empty_T r1 T1 O1 Er1) in X|]. split; [exact X1|]. split.
    - intros n Hn [X _]. cbn in X. pose proof (proj1 (proj1 O)). ints.
    - intros Q n Hn Ln. apply X2; auto. }
  apply empty_false in Er, Er1. pose proof O as [[Ra [Rb _]] [Rp _]]. pose proof O1 as [[Rd [Re _]] [Rq _]].
  match goal with |- exists r', match vec r with Some _ => ?s | None => _ end = _ /\ _ => set (sparse := s) end.
  assert (S : vec r <> None \/ vec r1 <> None -> exists r', sparse = Ret r' /\ rok sz r' /\ covers r' (lift Z.sub T T1)).
  { intros Hv. destruct (Cv Hv) as [Cr Cr1]. unfold sparse.
    destruct (conv junk r T J O Er Cr) as [s [v [S1 [S2 [S3 [S4 [S5 [S6 [S7 [S8 [S9 [S10 [S11 [S12 [S13 [S14 _]]]]]]]]]]]]]]]].
    destruct (conv junk r1 T1 J O1 Er1 Cr1) as [t [w [U1 [U2 [U3 [U4 [U5 [U6 [U7 [U8 [U9 [U10 [U11 [U12 [U13 [U14 _]]]]]]]]]]]]]]]].
    rewrite S1. cbn [bind]. rewrite U1. cbn [bind]. unfold the_vec. rewrite S2, U2. destruct (Sub_Vector_ok v w S4 U4) as [v' [V1 [V2 V3]]]. rewrite V1. cbn [bind]. rewrite !ck_ok by ints. cbn [bind extra_cstr rmin].
    assert (Me : forall n, vin v' n = true -> lift Z.sub T T1 n) by (intros n Q; apply V3 in Q; destruct Q as [_ [x [y [X1 [Y1 ->]]]]]; exists x, y; auto).
    assert (Me' : extra_cstr s || extra_cstr t = false -> forall n, 0 <= n -> lift Z.sub T T1 n -> vin v' n = true).
    { intros Q n Hn [x [y [X1 [Y1 ->]]]]. apply orb_false_elim in Q. apply V3. split; [exact Hn|]. exists x, y. split; [apply S11; tauto|]. split; [apply U11; tauto|reflexivity]. }
    set (e := extra_cstr s || extra_cstr t) in *. destruct (e || (rmin s - rmax t <? 0)) eqn:Ec.
    - destruct (From_Vector_ok sz small a e (rmin s - rmax t) (rmax s - rmin t) v' A V2 ltac:(ints)) as [r' [F1 [F2 [F3 [F4 F5]]]]]. exists r'. split; [exact F1|]. split; [exact F4|]. split; [intros n Hn X; apply Me; now apply F5|]. rewrite F3. intros Q n Hn Ln. apply F5. now apply Me'.
    - apply orb_false_elim in Ec. destruct Ec as [Ee Ep]. apply Z.ltb_ge in Ep. eexists. split; [reflexivity|].
      assert (Rg : forall n, vin v' n = true -> rmin s - rmax t <= n <= rmax s - rmin t) by (intros n Q; apply V3 in Q; destruct Q as [_ [x [y [X1 [Y1 ->]]]]]; pose proof (S14 x X1); pose proof (U14 y Y1); lia).
      split; [|split].
      + split; [cbn; ints|]. split; [cbn; ints|]. cbn [vec rmin rmax]. split; [exact V2|]. intros _. split; [apply V3; split; [lia|]; exists (rmin s), (rmax t); auto|]. split; [apply V3; split; [lia|]; exists (rmax s), (rmin t); auto|exact Rg].
      + intros n Hn [_ X]. now apply Me.
      + intros Q n Hn Ln. cbn in Q. pose proof (Me' Q n Hn Ln) as X. split; [now apply Rg|exact X]. }
  destruct (vec r) as [v|] eqn:E, (vec r1) as [v1|] eqn:E1; try (apply S; (left; congruence) || (right; congruence)).
  destruct (interval_T r T O E) as [X1 X2]. destruct (interval_T r1 T1 O1 E1) as [Y1 Y2]. rewrite !ck_ok by ints. cbn [bind]. eexists. split; [reflexivity|]. split; [split; [cbn; ints|split; [cbn; ints|exact X1]]|]. split.
  - intros n Hn [Q _]. cbn in Q. exists (Z.min (rmax r) (n + rmax r1)), (Z.min (rmax r) (n + rmax r1) - n). rewrite X2, Y2. lia.
  - intros _ n Hn [x [y [Q1 [Q2 ->]]]]. apply X2 in Q1. apply Y2 in Q2. unfold rin. cbn. split; [lia|exact I].
Qed.
(** multiplication, division and modulo share their structure *)
Lemma by_vectors op (P : (Z -> Prop) -> (Z -> Prop) -> Z -> Prop) junk junk1 a r r1 T T1 :
  vok sz junk -> vok sz junk1 -> around_ok a -> operand sz r T -> operand sz r1 T1 -> (rmin r <= rmax r -> rmin r1 <= rmax r1 -> rmin r <= vmax /\ rmin r1 <= vmax) ->
  (forall v w, vok sz v -> vok sz w -> (exists n, vin w n = true) -> exists v', op v w = Ret v' /\ vok sz v' /\ forall x, vin v' x = true <-> x <= vmax /\ P (fun x => vin v x = true) (fun x => vin w x = true) x) ->
  (forall S S1 x, P S S1 x -> (exists y, S y) /\ exists y, S1 y) ->
  exists r', Range_By_Vectors sz op junk junk1 a r r1 = Ret r' /\ rok sz r' /\
    ((rmax r' < rmin r' /\ forall n, ~ P T T1 n) \/ exists v w e e1, (forall n, vin v n = true -> T n) /\ (forall n, vin w n = true -> T1 n) /\ extra_cstr r' = e || e1 /\
      (forall n, T n -> e = false \/ n <= vmax -> vin v n = true) /\ (forall n, T1 n -> e1 = false \/ n <= vmax -> vin w n = true) /\ (exists n, vin v n = true) /\ (exists n, vin w n = true) /\
      (forall n, rin r' n <-> n <= vmax /\ P (fun x => vin v x = true) (fun x => vin w x = true) n) /\ forall n, vin v n = true -> n <= vmax).
Proof.
  intros J J1 A O O1 Cv Hop Hne. unfold Range_By_Vectors. destruct (Is_Empty r) eqn:Er.
  { apply empty_true in Er. exists r. split; [reflexivity|]. split; [apply O|]. left. split; [exact Er|]. intros n Q. apply Hne in Q. destruct Q as [[y Y] _]. now apply (empty_T r T O Er) in Y. }
  destruct (Is_Empty r1) eqn:Er1.
  { apply empty_true in Er1. eexists. split; [reflexivity|]. split; [apply (set_to_empty_ok r (fun _ => False) (proj1 O)); tauto|]. left. split; [cbn; pose proof (proj1 (proj1 O)); ints|]. intros n Q. apply Hne in Q. destruct Q as [_ [y Y]]. now apply (empty_T r1 T1 O1 Er1) in Y. }
  apply empty_false in Er, Er1. destruct (Cv Er Er1) as [Cr Cr1].
  destruct (conv junk r T J O Er Cr) as [s [v [S1 [S2 [S3 [S4 [S5 [S6 [S7 [S8 [S9 [S10 [S11 [S12 [S13 [S14 _]]]]]]]]]]]]]]]].
  destruct (conv junk1 r1 T1 J1 O1 Er1 Cr1) as [t [w [U1 [U2 [U3 [U4 [U5 [U6 [U7 [U8 [U9 [U10 [U11 [U12 [U13 [U14 _]]]]]]]]]]]]]]]].
  rewrite S1. cbn [bind]. rewrite U1. cbn [bind]. unfold the_vec. rewrite S2, U2. destruct (Hop v w S4 U4 (ex_intro _ _ U12)) as [v' [V1 [V2 V3]]]. rewrite V1. cbn [bind].
  destruct (From_Vector_ok sz small a (extra_cstr s || extra_cstr t) (rmin s) (rmax s) v' A V2 (proj1 S3)) as [r' [F1 [F2 [F3 [F4 F5]]]]]. exists r'. split; [exact F1|]. split; [exact F4|]. right. exists v, w, (extra_cstr s), (extra_cstr t). repeat (split; [assumption|]). split; [now exists (rmin s)|]. split; [now exists (rmin t)|]. split; [intros n; now rewrite F5|]. intros n Q. exact (proj2 (vin_range _ _ _ S4 Q)).
Qed.
(** nothing is lost below [vmax]; but nothing says so when products above it are lost *)
Theorem Mul_Range_ok junk junk1 a r r1 T T1 : vok sz junk -> vok sz junk1 -> around_ok a -> operand sz r T -> operand sz r1 T1 -> (rmin r <= rmax r -> rmin r1 <= rmax r1 -> rmin r <= vmax /\ rmin r1 <= vmax) -> is_int (vmax * vmax) ->
  exists r', Range_Mul_Range sz junk junk1 a r r1 = Ret r' /\ rok sz r' /\ (forall n, 0 <= n <= vmax -> (rin r' n <-> lift Z.mul T T1 n)) /\ forall n, vmax < n -> ~ rin r' n.
Proof.
  intros J J1 A O O1 Cv Sq. destruct (by_vectors (Vector_Mul_Vector sz) (lift Z.mul) junk junk1 a r r1 T T1 J J1 A O O1 Cv) as [r' [E [R H]]].
  - intros v w V W _. destruct (Mul_Vector_ok v w Sq V W) as [v' [Q1 [Q2 Q3]]]. exists v'. split; [exact Q1|]. split; [exact Q2|]. exact Q3.
  - intros S S1 x [p [q [P1 [P2 _]]]]. eauto.
  - exists r'. split; [exact E|]. split; [exact R|]. destruct H as [[L Ne]|[v [w [e [e1 [H1 [H2 [H3 [H4 [H5 [[p H6] [[q H7] [H8 H9]]]]]]]]]]]]].
    + split; [|intros n _; now apply rin_empty]. intros n Hn. split; [intros X; now apply rin_empty in X|intros X; now apply Ne in X].
    + split; [|intros n Hn X; apply H8 in X; lia]. intros n Hn. rewrite H8. split.
      * intros [_ [x [y [X [Y Q]]]]]. exists x, y. auto.
      * intros [x [y [X [Y Q]]]]. split; [lia|]. pose proof (proj1 (proj2 (proj2 (proj2 O))) x X) as Px. pose proof (proj1 (proj2 (proj2 (proj2 O1))) y Y) as Py. destruct (Z.eq_dec x 0) as [->|Nx]; [|destruct (Z.eq_dec y 0) as [->|Ny]].
        -- exists 0, q. split; [apply H4; [exact X|right; lia]|]. split; [exact H7|lia].
        -- exists p, 0. split; [exact H6|]. split; [apply H5; [exact Y|right; lia]|lia].
        -- exists x, y. split; [apply H4; [exact X|right; nia]|]. split; [apply H5; [exact Y|right; nia]|exact Q].
Qed.
Theorem Div_Range_ok junk junk1 a r r1 T T1 : vok sz junk -> vok sz junk1 -> around_ok a -> operand sz r T -> operand sz r1 T1 -> (rmin r <= rmax r -> rmin r1 <= rmax r1 -> rmin r <= vmax /\ rmin r1 <= vmax) ->
  exists r', Range_Div_Range sz junk junk1 a r r1 = Ret r' /\ rok sz r' /\ covers r' (quotients T T1).
Proof.
  intros J J1 A O O1 Cv. destruct (by_vectors (Vector_Div_Vector sz) quotients junk junk1 a r r1 T T1 J J1 A O O1 Cv) as [r' [E [R H]]].
  - intros v w V W Ne. destruct (Div_Vector_ok v w V W) as [v' [Q1 [Q2 Q3]]]. exists v'. split; [exact Q1|]. split; [exact Q2|]. intros x. split.
    + intros Q. split; [exact (proj2 (vin_range _ _ _ Q2 Q))|]. apply Q3 in Q. destruct Q as [Q|[-> Q]]; [now left|right; auto].
    + intros [_ [Q|[-> [Q _]]]]; apply Q3; [now left|right; auto].
  - intros S S1 x [[p [q [P1 [P2 _]]]]|[_ [Q1 Q2]]]; eauto.
  - exists r'. split; [exact E|]. split; [exact R|]. destruct H as [[L Ne]|[v [w [e [e1 [H1 [H2 [H3 [H4 [H5 [[p H6] [[q H7] [H8 H9]]]]]]]]]]]]].
    + split; [intros n Hn X; now apply rin_empty in X|intros _ n Hn X; now apply Ne in X].
    + split.
      * intros n Hn X. apply H8 in X. destruct X as [_ [[x [y [X [Y Q]]]]|[-> [X [y Y]]]]]; [left; exists x, y; split; [now apply H1|]; split; [now apply H2|exact Q]|right; split; [reflexivity|]; split; [now apply H1|]; exists y; now apply H2].
      * intros Q n Hn X. rewrite H3 in Q. apply orb_false_elim in Q. apply H8. destruct X as [[x [y [X [Y [N X3]]]]]|[-> [X [y Y]]]].
        -- assert (Vx : vin v x = true) by (apply H4; tauto). split; [|left; exists x, y; split; [exact Vx|]; split; [apply H5; tauto|auto]].
           pose proof (proj1 (proj2 (proj2 (proj2 O))) x X) as Px. pose proof (proj1 (proj2 (proj2 (proj2 O1))) y Y) as Py. pose proof (H9 x Vx). nia.
        -- split; [|right; split; [reflexivity|]; split; [apply H4; tauto|eauto]]. assert (Vx : vin v 0 = true) by (apply H4; tauto). exact (H9 0 Vx).
Qed.
Theorem Mod_Range_ok junk junk1 a r r1 T T1 : vok sz junk -> vok sz junk1 -> around_ok a -> operand sz r T -> operand sz r1 T1 -> (rmin r <= rmax r -> rmin r1 <= rmax r1 -> rmin r <= vmax /\ rmin r1 <= vmax) ->
  exists r', Range_Mod_Range sz junk junk1 a r r1 = Ret r' /\ rok sz r' /\ covers r' (remainders T T1).
Proof.
  intros J J1 A O O1 Cv. destruct (by_vectors (Vector_Mod_Vector sz) remainders junk junk1 a r r1 T T1 J J1 A O O1 Cv) as [r' [E [R H]]].
  - intros v w V W Ne. destruct (Mod_Vector_ok v w V W) as [v' [Q1 [Q2 Q3]]]. exists v'. split; [exact Q1|]. split; [exact Q2|]. intros x. split.
    + intros Q. split; [exact (proj2 (vin_range _ _ _ Q2 Q))|]. apply Q3 in Q. exact Q.
    + intros [_ Q]; now apply Q3.
  - intros S S1 x [p [q [P1 [P2 _]]]]. eauto.
  - exists r'. split; [exact E|]. split; [exact R|]. destruct H as [[L Ne]|[v [w [e [e1 [H1 [H2 [H3 [H4 [H5 [[p H6] [[q H7] [H8 H9]]]]]]]]]]]]].
    + split; [intros n Hn X; now apply rin_empty in X|intros _ n Hn X; now apply Ne in X].
    + split.
      * intros n Hn X. apply H8 in X. destruct X as [_ [x [y [X [Y Q]]]]]. exists x, y. auto.
      * intros Q n Hn X. rewrite H3 in Q. apply orb_false_elim in Q. apply H8. destruct X as [x [y [X [Y [N X3]]]]].
        assert (Vx : vin v x = true) by (apply H4; tauto). split; [|exists x, y; split; [exact Vx|]; split; [apply H5; tauto|auto]].
        pose proof (proj1 (proj2 (proj2 (proj2 O))) x X) as Px. pose proof (proj1 (proj2 (proj2 (proj2 O1))) y Y) as Py. pose proof (H9 x Vx). pose proof (Z.rem_le x y ltac:(lia) ltac:(lia)). lia.
Qed.
End R.
