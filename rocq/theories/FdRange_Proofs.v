(** Proofs about the ranges of the finite domain solver. *)
Require Import ZArith List Bool Lia Sorted.
Require Import Verif.Heap_Model Verif.FdRange_Model Verif.FdRange_Spec.
Import ListNotations.
Open Scope Z_scope.

(** ** Bits *)
Lemma all1_bit j : Z.testbit (2 ^ 64 - 1) j = (0 <=? j) && (j <? 64).
Proof.
  change (2 ^ 64 - 1) with (Z.ones 64). destruct (Z.leb_spec 0 j).
  - rewrite Z.testbit_ones_nonneg by lia. reflexivity.
  - rewrite Z.testbit_neg_r by lia. reflexivity.
Qed.
Lemma one_bit b j : 0 <= b -> Z.testbit (Z.shiftl 1 b) j = (j =? b).
Proof. intros Hb. rewrite Z.shiftl_1_l, Z.pow2_bits_eqb by lia. apply Z.eqb_sym. Qed.
Lemma word_high w j : 0 <= w < 2 ^ 64 -> 64 <= j -> Z.testbit w j = false.
Proof.
  intros Hw Hj. destruct (Z.eq_dec w 0) as [->|N]; [apply Z.bits_0|]. apply Z.bits_above_log2; [lia|]. apply Z.log2_lt_pow2; [lia|].
  apply Z.lt_le_trans with (2 ^ 64); [lia|]. apply Z.pow_le_mono_r; lia.
Qed.
Lemma word_bits w : (forall j, 64 <= j -> Z.testbit w j = false) -> 0 <= w -> w < 2 ^ 64.
Proof.
  intros H0 Hw. replace w with (w mod 2 ^ 64); [apply Z.mod_pos_bound; lia|]. apply Z.bits_inj'. intros j Hj.
  destruct (Z_lt_le_dec j 64); [apply Z.mod_pow2_bits_low; lia|]. rewrite Z.mod_pow2_bits_high by lia. symmetry. now apply H0.
Qed.
Lemma Word_No_ok n : 0 <= n < 2 ^ 63 -> Word_No n = n / 64.
Proof. intros Hn. unfold Word_No, vw. rewrite Z.mod_small by lia. rewrite Z.shiftr_div_pow2 by lia. reflexivity. Qed.
Lemma Bit_No_ok n : 0 <= n < 2 ^ 63 -> Bit_No n = n mod 64.
Proof. intros Hn. unfold Bit_No, vw. rewrite Z.mod_small by lia. change 63 with (Z.ones 6). rewrite Z.land_ones by lia. reflexivity. Qed.
Lemma nz_bit w : 0 <= w < 2 ^ 64 -> w <> 0 -> exists j, 0 <= j < 64 /\ Z.testbit w j = true.
Proof.
  intros Hw N. exists (Z.log2 w). split.
  - split; [apply Z.log2_nonneg|]. apply Z.log2_lt_pow2; lia.
  - apply Z.bit_log2. lia.
Qed.

(** ** Vectors *)
Lemma vin_nil n : vin [] n = false.
Proof. unfold vin. destruct (Z.to_nat (n / 64)); cbn [nth]; rewrite Z.bits_0; apply andb_false_r. Qed.
Lemma vin_cons w v n : vin (w :: v) n = if n <? 0 then false else if n <? 64 then Z.testbit w n else vin v (n - 64).
Proof.
  unfold vin. destruct (Z.ltb_spec n 0).
  - destruct (Z.leb_spec 0 n); [lia|reflexivity].
  - destruct (Z.leb_spec 0 n); [|lia]. destruct (Z.ltb_spec n 64); cbn [andb].
    + rewrite Z.div_small, Z.mod_small by lia. reflexivity.
    + destruct (Z.leb_spec 0 (n - 64)); [|lia]. cbn [andb]. replace (Z.to_nat (n / 64)) with (S (Z.to_nat ((n - 64) / 64))).
      * cbn [nth]. f_equal. replace n with (n - 64 + 1 * 64) at 1 by lia. now rewrite Z.mod_add by lia.
      * replace n with (n - 64 + 1 * 64) at 2 by lia. rewrite Z.div_add by lia. rewrite Z2Nat.inj_add; [|apply Z.div_pos; lia|lia]. change (Z.to_nat 1) with 1%nat. lia.
Qed.
Lemma vin_neg v n : n < 0 -> vin v n = false.
Proof. intros. unfold vin. destruct (Z.leb_spec 0 n); [lia|reflexivity]. Qed.
Lemma vin_high v : forall n, 64 * Z.of_nat (length v) <= n -> vin v n = false.
Proof.
  induction v as [|w v IH]; intros n Hn; [apply vin_nil|]. rewrite vin_cons. cbn [length] in Hn. destruct (Z.ltb_spec n 0); [reflexivity|]. destruct (Z.ltb_spec n 64); [lia|]. apply IH. lia.
Qed.
Lemma vin_range sz v n : vok sz v -> vin v n = true -> 0 <= n <= vmax sz.
Proof.
  intros [L _] E. unfold vmax. destruct (Z_lt_le_dec n 0); [rewrite vin_neg in E by lia; discriminate|]. destruct (Z_lt_le_dec n (64 * Z.of_nat (length v))); [lia|]. rewrite vin_high in E by lia. discriminate.
Qed.
Lemma nth_upd : forall v i w k, (i < length v)%nat -> nth k (upd v i w) 0 = if Nat.eqb k i then w else nth k v 0.
Proof.
  induction v as [|x v IH]; intros i w k Hi; cbn [length] in Hi; [lia|]. destruct i as [|i], k as [|k]; cbn [upd nth Nat.eqb]; try reflexivity. apply IH. lia.
Qed.
Lemma upd_length : forall v i w, length (upd v i w) = length v.
Proof. induction v as [|x v IH]; intros [|i] w; cbn; congruence. Qed.
Lemma upd_forall (P : Z -> Prop) : forall v i w, Forall P v -> P w -> Forall P (upd v i w).
Proof. induction v as [|x v IH]; intros [|i] w F Pw; cbn [upd]; [constructor|constructor| |]; inversion F; subst; constructor; auto. Qed.
Section V.
Variable sz : nat.
Hypothesis small : 64 * Z.of_nat sz <= 2 ^ 28.
Notation vmax := (vmax sz).
Lemma word_of v k : vok sz v -> 0 <= nth k v 0 < 2 ^ 64.
Proof.
  intros [_ F]. destruct (Nat.lt_ge_cases k (length v)) as [L|L].
  - rewrite Forall_forall in F. apply F. now apply nth_In.
  - rewrite nth_overflow by lia. lia.
Qed.
(** updating the word of [n] *)
Lemma rdv_ok v n : vok sz v -> 0 <= n <= vmax -> rdv v (Word_No n) = Ret (nth (Z.to_nat (n / 64)) v 0).
Proof.
  intros [L _] Hn. unfold FdRange_Model.vmax in Hn. unfold rdv. rewrite Word_No_ok by lia. rewrite L. assert (n / 64 < Z.of_nat sz) by (apply Z.div_lt_upper_bound; lia). assert (0 <= n / 64) by (apply Z.div_pos; lia).
  destruct (Z.leb_spec 0 (n / 64)), (Z.ltb_spec (n / 64) (Z.of_nat sz)); cbn [andb]; lia || reflexivity.
Qed.
Lemma wrv_ok v n w : vok sz v -> 0 <= n <= vmax -> 0 <= w < 2 ^ 64 ->
  exists v', wrv v (Word_No n) w = Ret v' /\ vok sz v' /\ forall m, vin v' m = if (0 <=? m) && (m / 64 =? n / 64) then Z.testbit w (m mod 64) else vin v m.
Proof.
  intros [L F] Hn Hw. unfold FdRange_Model.vmax in Hn. unfold wrv. rewrite Word_No_ok by lia. assert (n / 64 < Z.of_nat sz) by (apply Z.div_lt_upper_bound; lia). assert (0 <= n / 64) by (apply Z.div_pos; lia).
  rewrite L. destruct (Z.leb_spec 0 (n / 64)), (Z.ltb_spec (n / 64) (Z.of_nat sz)); cbn [andb]; try lia. eexists. split; [reflexivity|]. split.
  - split; [rewrite upd_length; exact L|]. now apply upd_forall.
  - intros m. unfold vin. rewrite nth_upd by lia. destruct (Z.leb_spec 0 m); cbn [andb]; [|reflexivity]. assert (0 <= m / 64) by (apply Z.div_pos; lia).
    destruct (Z.eqb_spec (m / 64) (n / 64)) as [E|E].
    + rewrite E, Nat.eqb_refl. reflexivity.
    + destruct (Nat.eqb_spec (Z.to_nat (m / 64)) (Z.to_nat (n / 64))); [lia|reflexivity].
Qed.
Lemma same_bit m n : 0 <= m -> 0 <= n -> m / 64 = n / 64 -> (m mod 64 =? n mod 64) = (m =? n).
Proof.
  intros Hm Hn E. pose proof (Z.div_mod m 64 ltac:(lia)). pose proof (Z.div_mod n 64 ltac:(lia)). destruct (Z.eqb_spec (m mod 64) (n mod 64)), (Z.eqb_spec m n); try reflexivity; [lia|congruence].
Qed.
Lemma Set_ok v n : vok sz v -> 0 <= n <= vmax -> exists v', Vector_Set_Value v n = Ret v' /\ vok sz v' /\ forall m, vin v' m = (m =? n) || vin v m.
Proof.
  intros V Hn. unfold Vector_Set_Value. rewrite (rdv_ok v n V Hn). cbn [bind]. unfold FdRange_Model.vmax in Hn. rewrite Bit_No_ok by lia. assert (Mb := Z.mod_pos_bound n 64 ltac:(lia)). pose proof (word_of v (Z.to_nat (n / 64)) V) as Hw.
  destruct (wrv_ok v n (Z.lor (nth (Z.to_nat (n / 64)) v 0) (Z.shiftl 1 (n mod 64))) V Hn) as [v' [E [V' Hv]]].
  - split; [apply Z.lor_nonneg; split; [lia|apply Z.shiftl_nonneg; lia]|]. apply word_bits; [|apply Z.lor_nonneg; split; [lia|apply Z.shiftl_nonneg; lia]].
    intros j Hj. rewrite Z.lor_spec, one_bit, (word_high _ j Hw Hj) by lia. destruct (Z.eqb_spec j (n mod 64)); [lia|reflexivity].
  - exists v'. split; [exact E|]. split; [exact V'|]. intros m. rewrite Hv. unfold vin. destruct (Z.leb_spec 0 m); cbn [andb].
    + destruct (Z.eqb_spec (m / 64) (n / 64)) as [Q|Q].
      * rewrite Z.lor_spec, one_bit by lia. rewrite same_bit by (lia || exact Q). rewrite Q. apply orb_comm.
      * destruct (Z.eqb_spec m n); [subst; lia|reflexivity].
    + destruct (Z.eqb_spec m n); [lia|reflexivity].
Qed.
Lemma Reset_ok v n : vok sz v -> 0 <= n <= vmax -> exists v', Vector_Reset_Value v n = Ret v' /\ vok sz v' /\ forall m, vin v' m = negb (m =? n) && vin v m.
Proof.
  intros V Hn. unfold Vector_Reset_Value. rewrite (rdv_ok v n V Hn). cbn [bind]. unfold FdRange_Model.vmax in Hn. rewrite Bit_No_ok by lia. assert (Mb := Z.mod_pos_bound n 64 ltac:(lia)). pose proof (word_of v (Z.to_nat (n / 64)) V) as Hw.
  destruct (wrv_ok v n (Z.land (nth (Z.to_nat (n / 64)) v 0) (Z.lxor (2 ^ 64 - 1) (Z.shiftl 1 (n mod 64)))) V Hn) as [v' [E [V' Hv]]].
  - split; [apply Z.land_nonneg; left; lia|]. apply word_bits; [|apply Z.land_nonneg; left; lia].
    intros j Hj. rewrite Z.land_spec, (word_high _ j Hw Hj). reflexivity.
  - exists v'. split; [exact E|]. split; [exact V'|]. intros m. rewrite Hv. unfold vin. destruct (Z.leb_spec 0 m); cbn [andb].
    + destruct (Z.eqb_spec (m / 64) (n / 64)) as [Q|Q].
      * rewrite Z.land_spec, Z.lxor_spec, one_bit, all1_bit by lia. assert (Mb' := Z.mod_pos_bound m 64 ltac:(lia)). destruct (Z.leb_spec 0 (m mod 64)), (Z.ltb_spec (m mod 64) 64); try lia. cbn [andb xorb]. rewrite same_bit by (lia || exact Q). rewrite Q. destruct (m =? n); cbn [negb andb]; [now rewrite andb_false_r|now rewrite andb_true_r].
      * destruct (Z.eqb_spec m n); [subst; lia|reflexivity].
    + now rewrite andb_false_r.
Qed.
Lemma Test_ok v n : vok sz v -> 0 <= n <= vmax -> Vector_Test_Value v n = Ret (vin v n).
Proof.
  intros V Hn. unfold Vector_Test_Value. rewrite (rdv_ok v n V Hn). cbn [bind]. unfold FdRange_Model.vmax in Hn. rewrite Bit_No_ok by lia. assert (Mb := Z.mod_pos_bound n 64 ltac:(lia)). f_equal. unfold vin. destruct (Z.leb_spec 0 n); [|lia]. cbn [andb].
  destruct (Z.testbit (nth (Z.to_nat (n / 64)) v 0) (n mod 64)) eqn:E.
  - destruct (Z.eqb_spec (Z.land (nth (Z.to_nat (n / 64)) v 0) (Z.shiftl 1 (n mod 64))) 0) as [Q|Q]; [|reflexivity]. exfalso. apply (f_equal (fun x => Z.testbit x (n mod 64))) in Q. rewrite Z.land_spec, one_bit, E, Z.eqb_refl, Z.bits_0 in Q by lia. discriminate.
  - destruct (Z.eqb_spec (Z.land (nth (Z.to_nat (n / 64)) v 0) (Z.shiftl 1 (n mod 64))) 0) as [Q|Q]; [reflexivity|]. exfalso. apply Q. apply Z.bits_inj'. intros j Hj. rewrite Z.land_spec, one_bit, Z.bits_0 by lia. destruct (Z.eqb_spec j (n mod 64)) as [->|]; [rewrite E; reflexivity|apply andb_false_r].
Qed.
Lemma nth_repeat_ (x : Z) n k : nth k (repeat x n) 0 = if (k <? n)%nat then x else 0.
Proof.
  clear. destruct (Nat.ltb_spec k n).
  - revert k H. induction n as [|n IH]; intros k Hk; [lia|]. destruct k; cbn; [reflexivity|apply IH; lia].
  - apply nth_overflow. rewrite repeat_length. lia.
Qed.
Lemma repeat_forall (P : Z -> Prop) x n : P x -> Forall P (repeat x n).
Proof. intros Px. induction n; cbn; constructor; auto. Qed.
Lemma From_Interval_ok min max : 0 <= min -> min <= max -> max <= vmax ->
  exists v, Vector_From_Interval sz min max = Ret v /\ vok sz v /\ forall m, vin v m = (min <=? m) && (m <=? max).
Proof.
  intros H1 H2 H3. assert (H3' := H3). unfold FdRange_Model.vmax in H3'. unfold Vector_From_Interval. cbv zeta.
  rewrite (Word_No_ok min), (Word_No_ok max), (Bit_No_ok min), (Bit_No_ok max) by lia.
  assert (A1 : min / 64 < Z.of_nat sz) by (apply Z.div_lt_upper_bound; lia). assert (A2 : max / 64 < Z.of_nat sz) by (apply Z.div_lt_upper_bound; lia). assert (A3 : 0 <= min / 64) by (apply Z.div_pos; lia).
  assert (A4 : min / 64 <= max / 64) by (apply Z.div_le_mono; lia).
  destruct (Z.ltb_spec (min / 64) (Z.of_nat sz)), (Z.ltb_spec (max / 64) (Z.of_nat sz)); cbn [andb]; try lia.
  set (a := Z.to_nat (min / 64)). set (b := S (Z.to_nat (max / 64))). set (v0 := repeat 0 a ++ repeat ALL_1 (b - a) ++ repeat 0 (sz - Nat.max a b)).
  assert (V0 : vok sz v0).
  { split.
    - unfold v0. rewrite !app_length, !repeat_length. unfold a, b. lia.
    - unfold v0. apply Forall_app. split; [apply repeat_forall; lia|]. apply Forall_app. split; apply repeat_forall; [unfold ALL_1|]; lia. }
  assert (N0 : forall k, nth k v0 0 = if (a <=? k)%nat && (k <? b)%nat then ALL_1 else 0).
  { intros k. unfold v0. destruct (Nat.leb_spec a k), (Nat.ltb_spec k b); cbn [andb].
    - rewrite app_nth2 by (rewrite repeat_length; lia). rewrite repeat_length. rewrite app_nth1 by (rewrite repeat_length; lia). rewrite nth_repeat_. destruct (Nat.ltb_spec (k - a) (b - a)); [reflexivity|lia].
    - rewrite app_nth2 by (rewrite repeat_length; lia). rewrite repeat_length. rewrite app_nth2 by (rewrite repeat_length; lia). rewrite nth_repeat_. now destruct (Nat.ltb _ _).
    - rewrite app_nth1 by (rewrite repeat_length; lia). rewrite nth_repeat_. now destruct (Nat.ltb _ _).
    - rewrite app_nth1 by (rewrite repeat_length; lia). rewrite nth_repeat_. now destruct (Nat.ltb _ _). }
  assert (Mb1 := Z.mod_pos_bound min 64 ltac:(lia)). assert (Mb2 := Z.mod_pos_bound max 64 ltac:(lia)).
  pose proof (rdv_ok v0 min V0 ltac:(lia)) as R1. rewrite Word_No_ok in R1 by lia. rewrite R1. cbn [bind].
  pose proof (word_of v0 (Z.to_nat (min / 64)) V0) as Hw.
  destruct (wrv_ok v0 min (Z.land (nth (Z.to_nat (min / 64)) v0 0) (Z.shiftl ALL_1 (min mod 64) mod 2 ^ 64)) V0 ltac:(lia)) as [v1 [E1 [V1 Hv1]]].
  { split; [apply Z.land_nonneg; left; lia|]. apply word_bits; [|apply Z.land_nonneg; left; lia]. intros j Hj. rewrite Z.land_spec, (word_high _ j Hw Hj). reflexivity. }
  rewrite Word_No_ok in E1 by lia. rewrite E1. cbn [bind].
  pose proof (rdv_ok v1 max V1 ltac:(lia)) as R2. rewrite Word_No_ok in R2 by lia. rewrite R2. cbn [bind].
  pose proof (word_of v1 (Z.to_nat (max / 64)) V1) as Hw1.
  destruct (wrv_ok v1 max (Z.land (nth (Z.to_nat (max / 64)) v1 0) (Z.shiftr ALL_1 (64 - 1 - max mod 64))) V1 ltac:(lia)) as [v2 [E2 [V2 Hv2]]].
  { split; [apply Z.land_nonneg; left; lia|]. apply word_bits; [|apply Z.land_nonneg; left; lia]. intros j Hj. rewrite Z.land_spec, (word_high _ j Hw1 Hj). reflexivity. }
  rewrite Word_No_ok in E2 by lia. exists v2. split; [exact E2|]. split; [exact V2|]. intros m.
  assert (B0 : forall m, vin v0 m = (0 <=? m) && (min / 64 <=? m / 64) && (m / 64 <=? max / 64)).
  { intros k. unfold vin. destruct (Z.leb_spec 0 k); cbn [andb]; [|reflexivity]. assert (0 <= k / 64) by (apply Z.div_pos; lia). rewrite N0. assert (Mk := Z.mod_pos_bound k 64 ltac:(lia)).
    destruct (Nat.leb_spec a (Z.to_nat (k / 64))), (Nat.ltb_spec (Z.to_nat (k / 64)) b), (Z.leb_spec (min / 64) (k / 64)), (Z.leb_spec (k / 64) (max / 64)); cbn [andb]; unfold a, b in *; try lia; try apply Z.bits_0.
    unfold ALL_1. rewrite all1_bit. destruct (Z.leb_spec 0 (k mod 64)), (Z.ltb_spec (k mod 64) 64); lia || reflexivity. }
  assert (Sub : forall v w k, 0 <= k -> nth (Z.to_nat (k / 64)) v 0 = w -> Z.testbit w (k mod 64) = vin v k) by (intros v w k Hk <-; unfold vin; destruct (Z.leb_spec 0 k); [reflexivity|lia]).
  assert (B1 : forall m, vin v1 m = (min <=? m) && (m / 64 <=? max / 64)).
  { intros k. rewrite Hv1. destruct (Z.leb_spec 0 k); cbn [andb].
    - assert (Mk := Z.mod_pos_bound k 64 ltac:(lia)). pose proof (Z.div_mod k 64 ltac:(lia)) as Dk. pose proof (Z.div_mod min 64 ltac:(lia)) as Dm. destruct (Z.eqb_spec (k / 64) (min / 64)) as [Q|Q].
      + rewrite Z.land_spec. rewrite (Sub v0 _ k) by (lia || now rewrite Q). rewrite B0. rewrite Z.mod_pow2_bits_low by lia. rewrite Z.shiftl_spec by lia. unfold ALL_1. rewrite all1_bit.
        destruct (Z.leb_spec 0 k), (Z.leb_spec (min / 64) (k / 64)), (Z.leb_spec (k / 64) (max / 64)), (Z.leb_spec 0 (k mod 64 - min mod 64)), (Z.ltb_spec (k mod 64 - min mod 64) 64), (Z.leb_spec min k); cbn [andb]; lia || reflexivity.
      + rewrite B0. destruct (Z.leb_spec 0 k), (Z.leb_spec (min / 64) (k / 64)), (Z.leb_spec (k / 64) (max / 64)), (Z.leb_spec min k); cbn [andb]; lia || reflexivity.
    - rewrite vin_neg by lia. destruct (Z.leb_spec min k); [lia|reflexivity]. }
  rewrite Hv2. destruct (Z.leb_spec 0 m); cbn [andb].
  - assert (Mk := Z.mod_pos_bound m 64 ltac:(lia)). pose proof (Z.div_mod m 64 ltac:(lia)) as Dk. pose proof (Z.div_mod max 64 ltac:(lia)) as Dm. destruct (Z.eqb_spec (m / 64) (max / 64)) as [Q|Q].
    + rewrite Z.land_spec. rewrite (Sub v1 _ m) by (lia || now rewrite Q). rewrite B1. rewrite Z.shiftr_spec by lia. unfold ALL_1. rewrite all1_bit.
      destruct (Z.leb_spec min m), (Z.leb_spec (m / 64) (max / 64)), (Z.leb_spec 0 (m mod 64 + (64 - 1 - max mod 64))), (Z.ltb_spec (m mod 64 + (64 - 1 - max mod 64)) 64), (Z.leb_spec m max); cbn [andb]; lia || reflexivity.
    + rewrite B1. destruct (Z.leb_spec min m), (Z.leb_spec (m / 64) (max / 64)), (Z.leb_spec m max); cbn [andb]; try lia; reflexivity.
  - rewrite vin_neg by lia. destruct (Z.leb_spec min m); [lia|reflexivity].
Qed.
Lemma Empty_ok : vok sz (Vector_Empty sz) /\ forall m, vin (Vector_Empty sz) m = false.
Proof.
  split.
  - split; [apply repeat_length|apply repeat_forall; lia].
  - intros m. unfold vin, Vector_Empty. rewrite nth_repeat_. destruct (Nat.ltb _ _); rewrite Z.bits_0; apply andb_false_r.
Qed.
Lemma Full_ok : vok sz (Vector_Full sz) /\ forall m, vin (Vector_Full sz) m = (0 <=? m) && (m <=? vmax).
Proof.
  split.
  - split; [apply repeat_length|apply repeat_forall; unfold ALL_1; lia].
  - intros m. unfold vin, Vector_Full, FdRange_Model.vmax. rewrite nth_repeat_. destruct (Z.leb_spec 0 m); [cbn [andb]|reflexivity]. assert (0 <= m / 64) by (apply Z.div_pos; lia). assert (Mk := Z.mod_pos_bound m 64 ltac:(lia)). pose proof (Z.div_mod m 64 ltac:(lia)).
    destruct (Nat.ltb_spec (Z.to_nat (m / 64)) sz), (Z.leb_spec m (64 * Z.of_nat sz - 1)); try lia.
    + unfold ALL_1. rewrite all1_bit. destruct (Z.leb_spec 0 (m mod 64)), (Z.ltb_spec (m mod 64) 64); lia || reflexivity.
    + apply Z.bits_0.
Qed.
Lemma zip_ok f g v v1 : (forall x y j, Z.testbit (f x y) j = g (Z.testbit x j) (Z.testbit y j)) -> (forall x y, 0 <= x < 2 ^ 64 -> 0 <= y < 2 ^ 64 -> 0 <= f x y) -> g false false = false ->
  vok sz v -> vok sz v1 -> vok sz (zip f v v1) /\ forall m, vin (zip f v v1) m = g (vin v m) (vin v1 m).
Proof.
  intros Hf Hp Hg V V1. assert (L : length (zip f v v1) = sz) by (unfold zip; rewrite map_length, combine_length, (proj1 V), (proj1 V1); lia).
  assert (N : forall k, (k < sz)%nat -> nth k (zip f v v1) 0 = f (nth k v 0) (nth k v1 0)).
  { intros k Hk. unfold zip. rewrite (nth_indep _ 0 ((fun p => f (fst p) (snd p)) (0, 0))) by (rewrite map_length, combine_length, (proj1 V), (proj1 V1); lia). rewrite (map_nth (fun p => f (fst p) (snd p))). rewrite combine_nth by (rewrite (proj1 V), (proj1 V1); reflexivity). reflexivity. }
  split.
  - split; [exact L|]. apply Forall_forall. intros w I. apply (In_nth _ _ 0) in I. destruct I as [k [Hk <-]]. rewrite L in Hk. rewrite N by exact Hk. pose proof (word_of v k V) as Hw. pose proof (word_of v1 k V1) as Hw1. split; [now apply Hp|].
    apply word_bits; [|now apply Hp]. intros j Hj. rewrite Hf, (word_high _ j Hw Hj), (word_high _ j Hw1 Hj). exact Hg.
  - intros m. unfold vin. destruct (Z.leb_spec 0 m); cbn [andb]; [|now rewrite Hg]. destruct (Nat.lt_ge_cases (Z.to_nat (m / 64)) sz) as [Lk|Lk].
    + rewrite N by exact Lk. apply Hf.
    + rewrite !nth_overflow by (rewrite ?L, ?(proj1 V), ?(proj1 V1); lia). now rewrite Z.bits_0, Hg.
Qed.
Lemma Union_v v v1 : vok sz v -> vok sz v1 -> vok sz (Vector_Union v v1) /\ forall m, vin (Vector_Union v v1) m = vin v m || vin v1 m.
Proof. intros V V1. apply (zip_ok Z.lor orb); auto; [intros; apply Z.lor_spec|intros; apply Z.lor_nonneg; lia]. Qed.
Lemma Inter_v v v1 : vok sz v -> vok sz v1 -> vok sz (Vector_Inter v v1) /\ forall m, vin (Vector_Inter v v1) m = vin v m && vin v1 m.
Proof. intros V V1. apply (zip_ok Z.land andb); auto; [intros; apply Z.land_spec|intros; apply Z.land_nonneg; lia]. Qed.
Lemma Compl_v v : vok sz v -> vok sz (Vector_Compl v) /\ forall m, vin (Vector_Compl v) m = (0 <=? m) && (m <=? vmax) && negb (vin v m).
Proof.
  intros V. assert (L : length (Vector_Compl v) = sz) by (unfold Vector_Compl; rewrite map_length; apply (proj1 V)).
  assert (N : forall k, (k < sz)%nat -> nth k (Vector_Compl v) 0 = Z.lxor (2 ^ 64 - 1) (nth k v 0)).
  { intros k Hk. unfold Vector_Compl. rewrite (nth_indep _ 0 (Z.lxor (2 ^ 64 - 1) 0)) by (rewrite map_length, (proj1 V); lia). rewrite (map_nth (Z.lxor (2 ^ 64 - 1))). reflexivity. }
  assert (Nn : forall w, 0 <= w < 2 ^ 64 -> 0 <= Z.lxor (2 ^ 64 - 1) w) by (intros w Hw; apply Z.lxor_nonneg; lia).
  split.
  - split; [exact L|]. apply Forall_forall. intros w I. apply (In_nth _ _ 0) in I. destruct I as [k [Hk <-]]. rewrite L in Hk. rewrite N by exact Hk. pose proof (word_of v k V) as Hw. split; [now apply Nn|].
    apply word_bits; [|now apply Nn]. intros j Hj. rewrite Z.lxor_spec, (word_high _ j Hw Hj), all1_bit. destruct (Z.leb_spec 0 j), (Z.ltb_spec j 64); lia || reflexivity.
  - intros m. unfold vin, FdRange_Model.vmax. destruct (Z.leb_spec 0 m); cbn [andb]; [|reflexivity]. assert (0 <= m / 64) by (apply Z.div_pos; lia). assert (Mk := Z.mod_pos_bound m 64 ltac:(lia)). pose proof (Z.div_mod m 64 ltac:(lia)).
    destruct (Nat.lt_ge_cases (Z.to_nat (m / 64)) sz) as [Lk|Lk].
    + rewrite N by exact Lk. rewrite Z.lxor_spec, all1_bit. destruct (Z.leb_spec 0 (m mod 64)), (Z.ltb_spec (m mod 64) 64), (Z.leb_spec m (64 * Z.of_nat sz - 1)); try lia. reflexivity.
    + rewrite nth_overflow by lia. rewrite Z.bits_0. destruct (Z.leb_spec m (64 * Z.of_nat sz - 1)); [lia|reflexivity].
Qed.
End V.

(** ** Scanning *)
Require Import Sorted.
Lemma vin_app : forall a b n, vin (a ++ b) n = if n <? 64 * Z.of_nat (length a) then vin a n else vin b (n - 64 * Z.of_nat (length a)).
Proof.
  induction a as [|w a IH]; intros b n.
  - cbn [app length]. rewrite vin_nil. replace (n - 64 * Z.of_nat 0) with n by lia. destruct (Z.ltb_spec n (64 * Z.of_nat 0)); [now apply vin_neg; lia|reflexivity].
  - cbn [app]. rewrite !vin_cons. cbn [length]. destruct (Z.ltb_spec n 0), (Z.ltb_spec n (64 * Z.of_nat (S (length a)))); try lia; try reflexivity.
    + destruct (Z.ltb_spec n 64); [reflexivity|]. rewrite IH. destruct (Z.ltb_spec (n - 64) (64 * Z.of_nat (length a))); [reflexivity|lia].
    + destruct (Z.ltb_spec n 64); [lia|]. rewrite IH. destruct (Z.ltb_spec (n - 64) (64 * Z.of_nat (length a))); [lia|]. f_equal. lia.
Qed.
Lemma find_seq f : forall k s, match find f (map Z.of_nat (seq s k)) with
  | Some i => f i = true /\ Z.of_nat s <= i < Z.of_nat s + Z.of_nat k /\ forall j, Z.of_nat s <= j < i -> f j = false
  | None => forall j, Z.of_nat s <= j < Z.of_nat s + Z.of_nat k -> f j = false end.
Proof.
  induction k as [|k IH]; intros s; cbn [seq map find]; [intros; lia|]. destruct (f (Z.of_nat s)) eqn:E.
  - split; [exact E|]. split; [lia|]. intros; lia.
  - specialize (IH (S s)). destruct (find f (map Z.of_nat (seq (S s) k))) as [i|].
    + destruct IH as [A [B C]]. split; [exact A|]. split; [lia|]. intros j Hj. destruct (Z.eq_dec j (Z.of_nat s)) as [->|]; [exact E|apply C; lia].
    + intros j Hj. destruct (Z.eq_dec j (Z.of_nat s)) as [->|]; [exact E|apply IH; lia].
Qed.
Lemma find_rev f : forall k, match find f (rev (map Z.of_nat (seq 0 k))) with
  | Some i => f i = true /\ 0 <= i < Z.of_nat k /\ forall j, i < j < Z.of_nat k -> f j = false
  | None => forall j, 0 <= j < Z.of_nat k -> f j = false end.
Proof.
  induction k as [|k IH]; [cbn; intros; lia|]. rewrite seq_S, map_app, rev_app_distr. cbn [plus map rev app find]. destruct (f (Z.of_nat k)) eqn:E.
  - split; [exact E|]. split; [lia|]. intros; lia.
  - destruct (find f (rev (map Z.of_nat (seq 0 k)))) as [i|].
    + destruct IH as [A [B C]]. split; [exact A|]. split; [lia|]. intros j Hj. destruct (Z.eq_dec j (Z.of_nat k)) as [->|]; [exact E|apply C; lia].
    + intros j Hj. destruct (Z.eq_dec j (Z.of_nat k)) as [->|]; [exact E|apply IH; lia].
Qed.
Lemma lsb_ok w : 0 <= w < 2 ^ 64 -> w <> 0 -> Z.testbit w (lsb w) = true /\ 0 <= lsb w < 64 /\ forall j, 0 <= j < lsb w -> Z.testbit w j = false.
Proof.
  intros Hw N. unfold lsb, bits64. pose proof (find_seq (Z.testbit w) 64 0) as F. destruct (find (Z.testbit w) (map Z.of_nat (seq 0 64))) as [i|].
  - destruct F as [A [B C]]. split; [exact A|]. split; [lia|exact C].
  - destruct (nz_bit w Hw N) as [j [Hj Tj]]. rewrite F in Tj by lia. discriminate.
Qed.
Lemma msb_ok w : 0 <= w < 2 ^ 64 -> w <> 0 -> Z.testbit w (msb w) = true /\ 0 <= msb w < 64 /\ forall j, msb w < j -> Z.testbit w j = false.
Proof.
  intros Hw N. unfold msb, bits64. pose proof (find_rev (Z.testbit w) 64) as F. destruct (find (Z.testbit w) (rev (map Z.of_nat (seq 0 64)))) as [i|].
  - destruct F as [A [B C]]. split; [exact A|]. split; [lia|]. intros j Hj. destruct (Z.lt_ge_cases j 64); [apply C; lia|now apply word_high].
  - destruct (nz_bit w Hw N) as [j [Hj Tj]]. rewrite F in Tj by lia. discriminate.
Qed.
Notation words := (Forall (fun w => 0 <= w < 2 ^ 64)).
Lemma vin_zero v n : vin (0 :: v) n = vin v (n - 64).
Proof.
  rewrite vin_cons. destruct (Z.ltb_spec n 0); [now rewrite vin_neg by lia|]. destruct (Z.ltb_spec n 64); [|reflexivity]. now rewrite Z.bits_0, vin_neg by lia.
Qed.
Lemma first_up_ok : forall v i, words v -> match first_up v i with
  | Some x => exists n, x = 64 * i + n /\ vin v n = true /\ forall m, vin v m = true -> n <= m
  | None => forall m, vin v m = false end.
Proof.
  induction v as [|w v IH]; intros i F; cbn [first_up]; [apply vin_nil|]. inversion F as [|? ? Fw Fv]; subst. destruct (Z.eqb_spec w 0) as [->|N].
  - specialize (IH (i + 1) Fv). destruct (first_up v (i + 1)) as [x|].
    + destruct IH as [n [-> [A B]]]. exists (n + 64). split; [lia|]. rewrite vin_zero. replace (n + 64 - 64) with n by lia. split; [exact A|]. intros m Hm. rewrite vin_zero in Hm. specialize (B _ Hm). lia.
    + intros m. rewrite vin_zero. apply IH.
  - destruct (lsb_ok w Fw N) as [A [B C]]. exists (lsb w). split; [reflexivity|]. split.
    + rewrite vin_cons. destruct (Z.ltb_spec (lsb w) 0); [lia|]. destruct (Z.ltb_spec (lsb w) 64); [exact A|lia].
    + intros m Hm. rewrite vin_cons in Hm. destruct (Z.ltb_spec m 0); [discriminate|]. destruct (Z.lt_ge_cases m (lsb w)); [|lia]. destruct (Z.ltb_spec m 64); [|lia]. rewrite C in Hm by lia. discriminate.
Qed.
Lemma vin_last v w n : vin (v ++ [w]) n = if n <? 64 * Z.of_nat (length v) then vin v n else Z.testbit w (n - 64 * Z.of_nat (length v)) && (n <? 64 * Z.of_nat (length v) + 64).
Proof.
  rewrite vin_app. destruct (Z.ltb_spec n (64 * Z.of_nat (length v))); [reflexivity|]. rewrite vin_cons, vin_nil. destruct (Z.ltb_spec (n - 64 * Z.of_nat (length v)) 0); [lia|].
  destruct (Z.ltb_spec (n - 64 * Z.of_nat (length v)) 64), (Z.ltb_spec n (64 * Z.of_nat (length v) + 64)); try lia; now rewrite ?andb_true_r, ?andb_false_r.
Qed.
Lemma first_down_ok : forall v, words v -> match first_down v (Z.of_nat (length v) - 1) with
  | Some x => vin (rev v) x = true /\ forall m, vin (rev v) m = true -> m <= x
  | None => forall m, vin (rev v) m = false end.
Proof.
  induction v as [|w v IH]; intros F; cbn [first_down rev length]; [apply vin_nil|]. inversion F as [|? ? Fw Fv]; subst. specialize (IH Fv).
  assert (L : Z.of_nat (length (rev v)) = Z.of_nat (length v)) by now rewrite rev_length.
  destruct (Z.eqb_spec w 0) as [->|N].
  - replace (Z.of_nat (S (length v)) - 1 - 1) with (Z.of_nat (length v) - 1) by lia.
    assert (Q : forall m, vin (rev v ++ [0]) m = vin (rev v) m).
    { intros m. rewrite vin_last, Z.bits_0. cbn [andb]. destruct (Z.ltb_spec m (64 * Z.of_nat (length (rev v)))); [reflexivity|]. now rewrite vin_high by lia. }
    destruct (first_down v _) as [x|]; [destruct IH as [A B]; split; [now rewrite Q|intros m Hm; rewrite Q in Hm; auto]|intros m; now rewrite Q].
  - destruct (msb_ok w Fw N) as [A [B C]]. replace (Z.of_nat (S (length v)) - 1) with (Z.of_nat (length v)) by lia. split.
    + rewrite vin_last, L. destruct (Z.ltb_spec (64 * Z.of_nat (length v) + msb w) (64 * Z.of_nat (length v))); [lia|]. replace (64 * Z.of_nat (length v) + msb w - 64 * Z.of_nat (length v)) with (msb w) by lia. rewrite A. destruct (Z.ltb_spec (64 * Z.of_nat (length v) + msb w) (64 * Z.of_nat (length v) + 64)); [reflexivity|lia].
    + intros m Hm. rewrite vin_last, L in Hm. destruct (Z.ltb_spec m (64 * Z.of_nat (length v))); [lia|]. apply andb_prop in Hm. destruct Hm as [Hm _]. destruct (Z.le_gt_cases (m - 64 * Z.of_nat (length v)) (msb w)); [lia|]. rewrite C in Hm by lia. discriminate.
Qed.
Lemma find_up_first : forall v w i, find_up v w i = match first_up (w :: v) i with Some x => x | None => -1 end.
Proof.
  induction v as [|x v IH]; intros w i; cbn [find_up first_up]; destruct (w =? 0); try reflexivity. rewrite IH. reflexivity.
Qed.
Lemma find_down_first : forall v w i, find_down v w i = match first_down (w :: v) i with Some x => x | None => -1 end.
Proof.
  induction v as [|x v IH]; intros w i; cbn [find_down first_down]; destruct (w =? 0); try reflexivity. rewrite IH. reflexivity.
Qed.
(** *** Enumeration *)
Lemma land1 w : (Z.land w 1 =? 0) = negb (Z.testbit w 0).
Proof.
  change 1 with (Z.ones 1). rewrite Z.land_ones by lia. change (2 ^ 1) with 2. rewrite Z.bit0_odd. rewrite Zmod_odd. destruct (Z.odd w); reflexivity.
Qed.
Lemma enum_word_ok : forall j w e, StronglySorted Z.lt (enum_word j w e) /\ (forall x, In x (enum_word j w e) <-> e <= x < e + Z.of_nat j /\ Z.testbit w (x - e) = true).
Proof.
  induction j as [|j IH]; intros w e; cbn [enum_word].
  - split; [constructor|]. intros x. split; [intros []|lia].
  - destruct (IH (Z.shiftr w 1) (e + 1)) as [IS II]. rewrite land1. assert (T : forall x, In x (enum_word j (Z.shiftr w 1) (e + 1)) <-> e < x < e + Z.of_nat (S j) /\ Z.testbit w (x - e) = true).
    { intros x. rewrite II. split; intros [A B]; (split; [lia|]); rewrite Z.shiftr_spec in * by lia; replace (x - (e + 1) + 1) with (x - e) in * by lia; exact B. }
    destruct (Z.testbit w 0) eqn:B0; cbn [negb app].
    + split.
      * constructor; [exact IS|]. apply Forall_forall. intros x I. apply T in I. lia.
      * intros x. cbn [In]. rewrite T. split.
        -- intros [<-|[A B]]; [split; [lia|]; now rewrite Z.sub_diag|split; [lia|exact B]].
        -- intros [A B]. destruct (Z.eq_dec e x); [now left|right; split; [lia|exact B]].
    + split; [exact IS|]. intros x. rewrite T. split; intros [A B]; (split; [|exact B]); [lia|]. destruct (Z.eq_dec e x) as [->|]; [rewrite Z.sub_diag in B; congruence|lia].
Qed.
Lemma sorted_app (l l' : list Z) : StronglySorted Z.lt l -> StronglySorted Z.lt l' -> (forall x y, In x l -> In y l' -> x < y) -> StronglySorted Z.lt (l ++ l').
Proof.
  induction l as [|a l IH]; intros A B C; [exact B|]. cbn. apply StronglySorted_inv in A. destruct A as [A1 A2]. constructor.
  - apply IH; auto. intros; apply C; cbn; auto.
  - apply Forall_app. split; [exact A2|]. apply Forall_forall. intros y I. apply C; cbn; auto.
Qed.
Lemma enum_from_ok : forall v e, StronglySorted Z.lt (enum_from v e) /\ (forall x, In x (enum_from v e) <-> vin v (x - e) = true).
Proof.
  induction v as [|w v IH]; intros e; cbn [enum_from].
  - split; [constructor|]. intros x. rewrite vin_nil. split; [intros []|discriminate].
  - destruct (IH (e + 64)) as [IS II]. destruct (enum_word_ok 64 w e) as [WS WI]. split.
    + apply sorted_app; auto. intros x y Ix Iy. apply WI in Ix. apply II in Iy. destruct (Z.lt_ge_cases (y - (e + 64)) 0); [rewrite vin_neg in Iy by lia; discriminate|lia].
    + intros x. rewrite in_app_iff, WI, II, vin_cons. destruct (Z.ltb_spec (x - e) 0).
      * rewrite vin_neg by lia. split; [intros [[A B]|A]; [lia|discriminate]|discriminate].
      * destruct (Z.ltb_spec (x - e) 64).
        -- rewrite (vin_neg v) by lia. split; [intros [[A B]|A]; [exact B|discriminate]|]. intros A. left. split; [lia|exact A].
        -- replace (x - (e + 64)) with (x - e - 64) by lia. split; [intros [[A B]|A]; [lia|exact A]|now right].
Qed.
Lemma enum_ok v : StronglySorted Z.lt (enum v) /\ forall x, In x (enum v) <-> vin v x = true.
Proof. destruct (enum_from_ok v 0) as [A B]. split; [exact A|]. intros x. unfold enum. rewrite B. now rewrite Z.sub_0_r. Qed.
Lemma enum_word_length : forall j w e, length (enum_word j w e) = length (filter (Z.testbit w) (map Z.of_nat (seq 0 j))).
Proof.
  induction j as [|j IH]; intros w e; [reflexivity|]. cbn [enum_word seq map filter]. rewrite land1, app_length, IH. change (Z.of_nat 0) with 0.
  assert (Q : forall l, length (filter (Z.testbit (Z.shiftr w 1)) (map Z.of_nat l)) = length (filter (Z.testbit w) (map Z.of_nat (map S l)))).
  { induction l as [|a l Il]; [reflexivity|]. cbn [map filter]. rewrite Z.shiftr_spec by lia. replace (Z.of_nat (S a)) with (Z.of_nat a + 1) by lia. destruct (Z.testbit w (Z.of_nat a + 1)); cbn [length]; now rewrite Il. }
  rewrite Q, seq_shift. destruct (Z.testbit w 0); reflexivity.
Qed.
Lemma Nb_Elem_v v : Vector_Nb_Elem v = Z.of_nat (length (enum v)).
Proof.
  unfold Vector_Nb_Elem, enum. assert (G : forall v e n, fold_left (fun nb w => nb + popcount w) v n = n + Z.of_nat (length (enum_from v e))).
  { clear. induction v as [|w v IH]; intros e n; cbn [fold_left enum_from]; [cbn; lia|]. rewrite (IH (e + 64)), app_length, enum_word_length. unfold popcount, bits64. lia. }
  rewrite (G v 0 0). lia.
Qed.

(** ** Ranges *)
Lemma to_int_ok x : is_int x -> to_int x = x.
Proof. unfold is_int, INT_MIN, INT_MAX, to_int. intros H. rewrite Z.mod_small by lia. lia. Qed.
Lemma ck_ok x : is_int x -> ck x = Ret x.
Proof. unfold is_int, ck. intros [A B]. apply Z.leb_le in A, B. now rewrite A, B. Qed.
Section R.
Variable sz : nat.
Hypothesis small : 64 * Z.of_nat sz <= 2 ^ 28.
Notation vmax := (vmax sz).
Ltac ints := unfold is_int, INT_MIN, INT_MAX, FdRange_Model.vmax in *; try lia.
Lemma beyond_ok n : is_int n -> beyond sz n = ((n <? 0) || (vmax <? n)).
Proof.
  intros H. unfold beyond. destruct (Z.ltb_spec n 0); cbn [orb].
  - assert (E : n mod 2 ^ 32 = n + 2 ^ 32) by (symmetry; apply (Z.mod_unique_pos _ _ (-1)); ints). rewrite E. apply Z.ltb_lt. ints.
  - rewrite Z.mod_small by ints. reflexivity.
Qed.
Lemma rok_vec r v : rok sz r -> vec r = Some v -> vok sz v.
Proof. intros [_ [_ H]] E. rewrite E in H. apply H. Qed.
Lemma rok_bounds r v : rok sz r -> vec r = Some v -> rmin r <= rmax r -> 0 <= rmin r /\ rmax r <= vmax.
Proof.
  intros [_ [_ H]] E L. rewrite E in H. destruct H as [V H]. destruct (H L) as [A [B _]]. pose proof (vin_range _ _ _ V A). pose proof (vin_range _ _ _ V B). lia.
Qed.
Lemma rok_rin r v n : rok sz r -> vec r = Some v -> rmin r <= rmax r -> (rin r n <-> vin v n = true).
Proof.
  intros [_ [_ H]] E L. unfold rin. rewrite E in *. destruct H as [V H]. destruct (H L) as [A [B C]]. split; [tauto|]. intros I. split; auto.
Qed.
Lemma From_Vector_ok a e p q v : around_ok a -> vok sz v -> INT_MIN < p <= INT_MAX ->
  exists r', Range_From_Vector a (Range e p q (Some v)) = Ret r' /\ vec r' = Some v /\ extra_cstr r' = e /\ rok sz r' /\ forall n, rin r' n <-> vin v n = true.
Proof.
  intros [Ab Be] V Hp. destruct V as [L F]. assert (V : vok sz v) by now split. unfold Range_From_Vector. cbn [vec extra_cstr rmin].
  pose proof (first_up_ok v 0 F) as U. pose proof (first_down_ok (rev v) (Forall_rev F)) as D. rewrite rev_length, rev_involutive in D.
  destruct (first_up v 0) as [lo|].
  - destruct U as [n [-> [U1 U2]]]. replace (64 * 0 + n) with n by lia. destruct (first_down (rev v) _) as [hi|].
    + destruct D as [D1 D2]. pose proof (vin_range _ _ _ V U1). pose proof (vin_range _ _ _ V D1). eexists. split; [reflexivity|]. rewrite !to_int_ok by ints. cbn [vec extra_cstr]. split; [reflexivity|]. split; [reflexivity|].
      split.
      * split; [cbn; ints|]. split; [cbn; ints|]. cbn. split; [exact V|]. intros _. split; [exact U1|]. split; [exact D1|]. intros m Hm. split; auto.
      * intros m. unfold rin. cbn. split; [tauto|]. intros I. split; [split; auto|exact I].
    + rewrite D in U1. discriminate.
  - assert (G : exists r', (if above a =? 0 then Ret (Set_To_Empty (Range e p q (Some v))) else match first_down (below a) (-1) with Some hi => Ret (Range e (to_int (64 * Z.of_nat (length v) + lsb (above a))) (to_int hi) (Some v)) | None => UB end) = Ret r' /\ vec r' = Some v /\ extra_cstr r' = e /\ INT_MIN < rmin r' <= INT_MAX /\ is_int (rmax r') /\ rmax r' < rmin r').
    { destruct (Z.eqb_spec (above a) 0) as [Z0|N0].
      - eexists. split; [reflexivity|]. cbn. split; [reflexivity|]. split; [reflexivity|]. split; [exact Hp|]. ints.
      - destruct Be as [B|[l [w [l' [B1 [B2 [B3 B4]]]]]]]; [lia|].
        assert (FD : forall i, first_down (below a) i = Some (64 * (i - Z.of_nat (length l)) + msb w)).
        { rewrite B1. clear -B2 B3. induction l as [|x l IH]; intros i; cbn [app first_down length].
          - destruct (Z.eqb_spec w 0); [lia|]. do 2 f_equal. lia.
          - inversion B2 as [|? ? X1 X2]; subst. cbn [Z.eqb]. rewrite IH by exact X2. do 2 f_equal. lia. }
        rewrite FD. destruct (lsb_ok (above a) Ab N0) as [_ [Lb _]]. destruct (msb_ok w) as [_ [Mb _]]; [lia|lia|]. eexists. split; [reflexivity|]. cbn [vec extra_cstr rmin rmax]. rewrite !to_int_ok by (unfold is_int, INT_MIN, INT_MAX; lia). unfold is_int, INT_MIN, INT_MAX. repeat split; lia. }
    destruct G as [r' [E [G1 [G2 [G3 [G4 G5]]]]]]. exists r'. split.
    { destruct (first_down (rev v) (Z.of_nat (length v) - 1)); exact E. }
    split; [exact G1|]. split; [exact G2|]. split.
    + split; [exact G3|]. split; [exact G4|]. rewrite G1. split; [exact V|]. intros; lia.
    + intros n. unfold rin. rewrite G1, U. split; [intros [X _]; lia|discriminate].
Qed.
Lemma Becomes_Sparse_ok junk r : vok sz junk -> rok sz r -> vec r = None ->
  exists v', let min := Z.max 0 (rmin r) in let max := Z.min vmax (rmax r) in
    Range_Becomes_Sparse sz junk r = Ret (Range (vmax <? rmax r) min max (Some v')) /\ rok sz (Range (vmax <? rmax r) min max (Some v')) /\ (max < min -> v' = junk).
Proof.
  intros J [R1 [R2 R3]] E. unfold Range_Becomes_Sparse. rewrite E.
  replace (if rmin r <? 0 then 0 else rmin r) with (Z.max 0 (rmin r)) by (destruct (Z.ltb_spec (rmin r) 0); lia).
  replace (if vmax <? rmax r then vmax else rmax r) with (Z.min vmax (rmax r)) by (destruct (Z.ltb_spec vmax (rmax r)); lia).
  destruct (Z.leb_spec (Z.max 0 (rmin r)) (Z.min vmax (rmax r))) as [L|L].
  - destruct (From_Interval_ok sz small _ _ (Z.le_max_l 0 (rmin r)) L (Z.le_min_l _ _)) as [v [Q1 [Q2 Q3]]]. exists v. cbv zeta. rewrite Q1. cbn [bind]. split; [reflexivity|]. split; [|lia].
    split; [cbn; ints|]. split; [cbn; ints|]. cbn. split; [exact Q2|]. intros _. rewrite !Q3. split; [|split].
    + apply andb_true_intro. split; apply Z.leb_le; lia.
    + apply andb_true_intro. split; apply Z.leb_le; lia.
    + intros n Hn. rewrite Q3 in Hn. apply andb_prop in Hn. destruct Hn as [Y1 Y2]. apply Z.leb_le in Y1, Y2. lia.
  - exists junk. cbv zeta. split; [reflexivity|]. split; [|reflexivity]. split; [cbn; ints|]. split; [cbn; ints|]. cbn. split; [exact J|]. lia.
Qed.
(** the second case: nothing remains of the interval *)
Lemma sparse_copy_ok junk r : vok sz junk -> rok sz r ->
  exists r' v', sparse_copy sz junk r = Ret r' /\ vec r' = Some v' /\ rok sz r' /\ (forall T, means sz r T -> means sz r' T) /\ (forall n, rin r' n <-> 0 <= n <= vmax /\ rin r n) /\ (extra_cstr r = true -> extra_cstr r' = true)
    /\ (forall v, vec r = Some v -> r' = r) /\ (vec r = None -> rmin r' = Z.max 0 (rmin r) /\ rmax r' = Z.min vmax (rmax r) /\ extra_cstr r' = (vmax <? rmax r)).
Proof.
  intros J R. unfold sparse_copy. destruct (vec r) as [v|] eqn:E.
  - exists r, v. split; [reflexivity|]. split; [exact E|]. split; [exact R|]. split; [auto|]. split; [|split; [auto|split; [reflexivity|discriminate]]].
    intros n. split; [|tauto]. intros I. split; [|exact I]. unfold rin in I. rewrite E in I. exact (vin_range _ _ _ (rok_vec _ _ R E) (proj2 I)).
  - destruct (Becomes_Sparse_ok junk r J R E) as [v' [Q1 [Q2 _]]]. cbv zeta in Q1, Q2. eexists _, v'. split; [exact Q1|]. split; [reflexivity|]. split; [exact Q2|].
    assert (I : forall n, rin (Range (vmax <? rmax r) (Z.max 0 (rmin r)) (Z.min vmax (rmax r)) (Some v')) n <-> 0 <= n <= vmax /\ rin r n).
    { intros n. destruct (Z.le_gt_cases (Z.max 0 (rmin r)) (Z.min vmax (rmax r))) as [L|L].
      - split.
        + intros I. pose proof I as I0. unfold rin in I0. cbn in I0. unfold rin. rewrite E. lia.
        + intros [I1 I2]. unfold rin in I2. rewrite E in I2. apply (rok_rin _ v' n Q2 eq_refl); [exact L|]. revert Q1. unfold Range_Becomes_Sparse. rewrite E.
          replace (if rmin r <? 0 then 0 else rmin r) with (Z.max 0 (rmin r)) by (destruct (Z.ltb_spec (rmin r) 0); lia).
          replace (if vmax <? rmax r then vmax else rmax r) with (Z.min vmax (rmax r)) by (destruct (Z.ltb_spec vmax (rmax r)); lia).
          destruct (Z.leb_spec (Z.max 0 (rmin r)) (Z.min vmax (rmax r))); [|lia]. destruct (From_Interval_ok sz small _ _ (Z.le_max_l 0 (rmin r)) L (Z.le_min_l _ _)) as [w [X1 [X2 X3]]]. rewrite X1. cbn [bind]. intros X. injection X as ->. rewrite X3. apply andb_true_intro. split; apply Z.leb_le; lia.
      - unfold rin. cbn. rewrite E. lia. }
    split; [|split; [exact I|split; [|split; [discriminate|auto]]]].
    + intros T M n Hn Hx. rewrite I. cbn [extra_cstr] in Hx. destruct R as [_ [_ R3]]. rewrite E in R3. rewrite <- (M n Hn (or_introl R3)). split; [tauto|]. intros I1. split; [|exact I1]. split; [exact Hn|]. destruct Hx as [Hx|Hx]; [|exact Hx]. apply Z.ltb_ge in Hx. unfold rin in I1. lia.
    + destruct R as [_ [_ R3]]. rewrite E in R3. congruence.
Qed.
End R.
