(** Arithmetic of a range and a constant (fd_range.c:626-785, 1537-1683). *)
Require Import ZArith List Bool Lia Sorted.
Require Import Verif.Heap_Model Verif.FdRange_Model Verif.FdRange_Spec Verif.FdRange_Proofs Verif.FdRange_Set Verif.FdRange_Arith.
Import ListNotations.
Open Scope Z_scope.

Lemma vin_firstn : forall m v x, vin (firstn m v) x = (x <? 64 * Z.of_nat m) && vin v x.
Proof.
  induction m as [|m IH]; intros v x; [cbn [firstn]; rewrite vin_nil; destruct (Z.ltb_spec x (64 * Z.of_nat 0)); [now rewrite vin_neg by lia|reflexivity]|].
  destruct v as [|w v]; [cbn [firstn]; rewrite vin_nil; now rewrite andb_false_r|]. cbn [firstn]. rewrite !vin_cons, IH. destruct (Z.ltb_spec x 0); [now rewrite andb_false_r|]. destruct (Z.ltb_spec x 64).
  - destruct (Z.ltb_spec x (64 * Z.of_nat (S m))); [reflexivity|lia].
  - destruct (Z.ltb_spec (x - 64) (64 * Z.of_nat m)), (Z.ltb_spec x (64 * Z.of_nat (S m))); lia || reflexivity.
Qed.
Lemma vin_skipn : forall k v x, vin (skipn k v) x = (0 <=? x) && vin v (x + 64 * Z.of_nat k).
Proof.
  induction k as [|k IH]; intros v x; [cbn [skipn]; replace (x + 64 * Z.of_nat 0) with x by lia; destruct (Z.leb_spec 0 x); [reflexivity|now apply vin_neg]|].
  destruct v as [|w v]; [cbn [skipn]; rewrite !vin_nil; now rewrite andb_false_r|]. cbn [skipn]. rewrite IH, vin_cons. destruct (Z.leb_spec 0 x); [|reflexivity]. cbn [andb]. destruct (Z.ltb_spec (x + 64 * Z.of_nat (S k)) 0); [lia|]. destruct (Z.ltb_spec (x + 64 * Z.of_nat (S k)) 64); [lia|]. f_equal. lia.
Qed.
Lemma vin_zeros k x : vin (repeat 0 k) x = false.
Proof. unfold vin. rewrite nth_repeat_. destruct (Nat.ltb _ _); rewrite Z.bits_0; apply andb_false_r. Qed.
Lemma lor_word x y : 0 <= x < 2 ^ 64 -> 0 <= y < 2 ^ 64 -> 0 <= Z.lor x y < 2 ^ 64.
Proof. intros A B. assert (0 <= Z.lor x y) by (apply Z.lor_nonneg; lia). split; [assumption|]. apply word_bits; [|assumption]. intros j Hj. now rewrite Z.lor_spec, !word_high by assumption. Qed.
Lemma shiftr_word x k : 0 <= k -> 0 <= x < 2 ^ 64 -> 0 <= Z.shiftr x k < 2 ^ 64.
Proof. intros Hk A. assert (0 <= Z.shiftr x k) by (apply Z.shiftr_nonneg; lia). split; [assumption|]. apply word_bits; [|assumption]. intros j Hj. rewrite Z.shiftr_spec by lia. apply word_high; lia. Qed.
Notation words := (Forall (fun w => 0 <= w < 2 ^ 64)).
Lemma shl_ok b : 0 < b < 64 -> forall v rem, words v -> 0 <= rem < 2 ^ b ->
  length (shl_words b rem v) = length v /\ words (shl_words b rem v) /\ forall n, vin (shl_words b rem v) n = if n <? b then (0 <=? n) && Z.testbit rem n && (0 <? Z.of_nat (length v)) else (n <? 64 * Z.of_nat (length v)) && vin v (n - b).
Proof.
  intros Hb. assert (Pb : 2 ^ b <= 2 ^ 64) by (apply Z.pow_le_mono_r; lia). induction v as [|w v IH]; intros rem F Hr; cbn [shl_words].
  - split; [reflexivity|]. split; [constructor|]. intros n. rewrite !vin_nil. destruct (n <? b); now rewrite ?andb_false_r.
  - inversion F as [|? ? Fw Fv]; subst. assert (Hr' : 0 <= Z.shiftr w (64 - b) < 2 ^ b).
    { rewrite Z.shiftr_div_pow2 by lia. split; [apply Z.div_pos; lia|]. apply Z.div_lt_upper_bound; [lia|]. rewrite <- Z.pow_add_r by lia. replace (64 - b + b) with 64 by lia. lia. }
    destruct (IH _ Fv Hr') as [I1 [I2 I3]]. split; [cbn [length]; now rewrite I1|]. split.
    + constructor; [|exact I2]. apply lor_word; [apply Z.mod_pos_bound; lia|lia].
    + assert (Rh : forall n, b <= n -> Z.testbit rem n = false).
      { intros n Hn. destruct (Z.eq_dec rem 0) as [->|]; [apply Z.bits_0|]. apply Z.bits_above_log2; [lia|]. apply Z.log2_lt_pow2; [lia|]. pose proof (Z.pow_le_mono_r 2 b n ltac:(lia) ltac:(lia)). lia. }
      intros n. rewrite !vin_cons. cbn [length]. destruct (Z.ltb_spec n 0).
      * destruct (Z.ltb_spec n b); [|lia]. destruct (Z.leb_spec 0 n); [lia|reflexivity].
      * destruct (Z.ltb_spec n 64).
        -- rewrite Z.lor_spec, Z.mod_pow2_bits_low by lia. rewrite Z.shiftl_spec by lia. destruct (Z.ltb_spec n b).
           ++ rewrite (Z.testbit_neg_r w) by lia. destruct (Z.leb_spec 0 n); [|lia]. destruct (Z.ltb_spec 0 (Z.of_nat (S (length v)))); [|lia]. now rewrite andb_true_r.
           ++ rewrite Rh by lia. rewrite orb_false_r. destruct (Z.ltb_spec n (64 * Z.of_nat (S (length v)))); [|lia]. destruct (Z.ltb_spec (n - b) 0); [lia|]. destruct (Z.ltb_spec (n - b) 64); [reflexivity|lia].
        -- destruct (Z.ltb_spec n b); [lia|]. destruct (Z.ltb_spec (n - b) 0); [lia|]. rewrite I3. destruct (Z.ltb_spec (n - 64) b).
           ++ rewrite Z.shiftr_spec by lia. replace (n - 64 + (64 - b)) with (n - b) by lia. destruct (Z.leb_spec 0 (n - 64)); [|lia]. destruct (Z.ltb_spec (n - b) 64); [|lia]. cbn [andb]. rewrite andb_comm. destruct (Z.ltb_spec 0 (Z.of_nat (length v))), (Z.ltb_spec n (64 * Z.of_nat (S (length v)))); lia || reflexivity.
           ++ destruct (Z.ltb_spec (n - b) 64); [lia|]. replace (n - b - 64) with (n - 64 - b) by lia. destruct (Z.ltb_spec (n - 64) (64 * Z.of_nat (length v))), (Z.ltb_spec n (64 * Z.of_nat (S (length v)))); lia || reflexivity.
Qed.
Lemma shr_ok b : 0 < b < 64 -> forall v, words v ->
  length (fst (shr_words b v)) = length v /\ words (fst (shr_words b v)) /\ (snd (shr_words b v) = match v with [] => 0 | w :: _ => Z.shiftl w (64 - b) mod 2 ^ 64 end) /\ forall n, vin (fst (shr_words b v)) n = (0 <=? n) && vin v (n + b).
Proof.
  intros Hb. induction v as [|w v IH]; intros F; cbn [shr_words].
  - split; [reflexivity|]. split; [constructor|]. split; [reflexivity|]. intros n. cbn [fst]. rewrite !vin_nil. now rewrite andb_false_r.
  - inversion F as [|? ? Fw Fv]; subst. destruct (IH Fv) as [I1 [I2 [I3 I4]]]. destruct (shr_words b v) as [r rem]. cbn [fst snd] in *.
    assert (Hr : 0 <= rem < 2 ^ 64) by (rewrite I3; destruct v; [lia|apply Z.mod_pos_bound; lia]).
    split; [cbn [length]; now rewrite I1|]. split; [constructor; [apply lor_word; [apply shiftr_word; lia|exact Hr]|exact I2]|]. split; [reflexivity|].
    intros n. rewrite !vin_cons. destruct (Z.leb_spec 0 n); cbn [andb].
    + destruct (Z.ltb_spec n 0); [lia|]. destruct (Z.ltb_spec (n + b) 0); [lia|]. destruct (Z.ltb_spec n 64).
      * rewrite Z.lor_spec, Z.shiftr_spec by lia. destruct (Z.ltb_spec (n + b) 64).
        -- assert (Tr : Z.testbit rem n = false). { rewrite I3. destruct v as [|w1 v]; [apply Z.bits_0|]. rewrite Z.mod_pow2_bits_low by lia. rewrite Z.shiftl_spec by lia. apply Z.testbit_neg_r. lia. } rewrite Tr. apply orb_false_r.
        -- rewrite (word_high w) by lia. cbn [orb]. rewrite I3. destruct v as [|w1 v]; [now rewrite Z.bits_0, vin_nil|]. rewrite Z.mod_pow2_bits_low by lia. rewrite Z.shiftl_spec by lia. rewrite vin_cons. destruct (Z.ltb_spec (n + b - 64) 0); [lia|]. destruct (Z.ltb_spec (n + b - 64) 64); [|lia]. f_equal. lia.
      * destruct (Z.ltb_spec (n + b) 64); [lia|]. rewrite I4. destruct (Z.leb_spec 0 (n - 64)); [|lia]. cbn [andb]. f_equal. lia.
    + destruct (Z.ltb_spec n 0); [reflexivity|lia].
Qed.

Section R.
Variable sz : nat.
Hypothesis small : 64 * Z.of_nat sz <= 2 ^ 28.
Notation vmax := (vmax sz).
Ltac ints := unfold is_int, INT_MIN, INT_MAX, FdRange_Model.vmax in *; try lia.
Lemma forall_firstn (P : Z -> Prop) k v : Forall P v -> Forall P (firstn k v).
Proof. intros F. apply Forall_forall. rewrite Forall_forall in F. intros x I. apply F. rewrite <- (firstn_skipn k v). apply in_or_app. now left. Qed.
Lemma forall_skipn (P : Z -> Prop) k v : Forall P v -> Forall P (skipn k v).
Proof. intros F. apply Forall_forall. rewrite Forall_forall in F. intros x I. apply F. rewrite <- (firstn_skipn k v). apply in_or_app. now right. Qed.
Lemma Add_Value_v v n : vok sz v -> is_int n -> n <> INT_MIN ->
  exists v', Vector_Add_Value sz v n = Ret v' /\ vok sz v' /\ forall x, vin v' x = (0 <=? x) && (x <=? vmax) && vin v (x - n).
Proof.
  intros V Bn Nn. unfold Vector_Add_Value. pose proof V as [L F]. destruct (Z.leb_spec 0 n) as [Hn|Hn].
  - rewrite Word_No_ok, Bit_No_ok by ints. pose proof (Z.mod_pos_bound n 64 ltac:(lia)) as Mb. pose proof (Z.div_mod n 64 ltac:(lia)) as Dm. assert (D0 : 0 <= n / 64) by (apply Z.div_pos; lia).
    set (k := Z.to_nat (n / 64)). assert (Zk : Z.of_nat k = n / 64) by (unfold k; lia). set (b := n mod 64) in *. set (v1 := firstn sz (repeat 0 k ++ v)).
    assert (L1 : length v1 = sz) by (unfold v1; rewrite firstn_length, app_length, repeat_length; lia).
    assert (F1 : words v1) by (apply forall_firstn; apply Forall_app; split; [apply repeat_forall; lia|exact F]).
    assert (I1 : forall x, vin v1 x = (x <=? vmax) && vin v (x - 64 * (n / 64))).
    { intros x. unfold v1. rewrite vin_firstn, vin_app, repeat_length, vin_zeros, Zk. replace (x <? 64 * Z.of_nat sz) with (x <=? vmax) by (unfold FdRange_Model.vmax; destruct (Z.leb_spec x (64 * Z.of_nat sz - 1)), (Z.ltb_spec x (64 * Z.of_nat sz)); lia || reflexivity). f_equal. destruct (Z.ltb_spec x (64 * (n / 64))); [symmetry; apply vin_neg; lia|reflexivity]. }
    destruct (Z.eqb_spec b 0) as [B0|B0].
    + exists v1. split; [reflexivity|]. split; [now split|]. intros x. rewrite I1. replace (x - 64 * (n / 64)) with (x - n) by lia. destruct (Z.leb_spec 0 x); [reflexivity|]. rewrite vin_neg by lia. now rewrite andb_false_r.
    + destruct (shl_ok b ltac:(lia) (skipn k v1) 0 (forall_skipn _ _ _ F1)) as [S1 [S2 S3]]; [pose proof (Z.pow_pos_nonneg 2 b); lia|]. eexists. split; [reflexivity|]. split.
      * split; [rewrite app_length, S1, <- app_length, firstn_skipn; exact L1|]. apply Forall_app. split; [now apply forall_firstn|exact S2].
      * intros x. rewrite vin_app, firstn_length, L1, S3. rewrite skipn_length, L1. rewrite Z.bits_0, andb_false_r. cbn [andb]. rewrite vin_firstn, I1, vin_skipn, I1, Zk. replace (Z.of_nat (Nat.min k sz)) with (Z.min (n / 64) (Z.of_nat sz)) by lia.
        destruct (Z.ltb_spec x (64 * Z.min (n / 64) (Z.of_nat sz))).
        -- rewrite (vin_neg v (x - 64 * (n / 64))), (vin_neg v (x - n)) by lia. now rewrite !andb_false_r.
        -- destruct (Z.le_gt_cases (Z.of_nat sz) (n / 64)) as [G|G].
           ++ rewrite Z.min_r in * by lia. replace (sz - k)%nat with O by lia. destruct (Z.leb_spec x vmax); [ints|]. rewrite andb_false_r. cbn [andb]. destruct (Z.ltb_spec (x - 64 * Z.of_nat sz) b); [reflexivity|]. destruct (Z.ltb_spec (x - 64 * Z.of_nat sz) (64 * Z.of_nat 0)); [lia|reflexivity].
           ++ rewrite Z.min_l in * by lia. replace (Z.of_nat (sz - k)) with (Z.of_nat sz - n / 64) by lia. destruct (Z.ltb_spec (x - 64 * (n / 64)) b).
              ** rewrite vin_neg by lia. now rewrite andb_false_r.
              ** replace (x - 64 * (n / 64) - b + 64 * (n / 64) - 64 * (n / 64)) with (x - n) by lia. destruct (Z.leb_spec 0 (x - 64 * (n / 64) - b)); [|lia]. destruct (Z.leb_spec 0 x); [|lia]. cbn [andb].
                 destruct (Z.ltb_spec (x - 64 * (n / 64)) (64 * (Z.of_nat sz - n / 64))), (Z.leb_spec x vmax), (Z.leb_spec (x - 64 * (n / 64) - b + 64 * (n / 64)) vmax); unfold FdRange_Model.vmax in *; lia || reflexivity.
  - rewrite ck_ok by ints. cbn [bind]. set (m := - n). assert (Hm : 0 < m) by (unfold m; lia). assert (Bm : is_int m) by (unfold m; ints). rewrite Word_No_ok, Bit_No_ok by ints. pose proof (Z.mod_pos_bound m 64 ltac:(lia)) as Mb. pose proof (Z.div_mod m 64 ltac:(lia)) as Dm. assert (D0 : 0 <= m / 64) by (apply Z.div_pos; lia).
    set (k := Z.to_nat (m / 64)). assert (Zk : Z.of_nat k = m / 64) by (unfold k; lia). set (b := m mod 64) in *. set (v1 := skipn k v ++ repeat 0 (Nat.min k sz)).
    assert (L1 : length v1 = sz) by (unfold v1; rewrite app_length, skipn_length, repeat_length; lia).
    assert (F1 : words v1) by (apply Forall_app; split; [now apply forall_skipn|apply repeat_forall; lia]).
    assert (Hx : forall x, (0 <=? x) && (x <=? vmax) && vin v (x - n) = (0 <=? x) && vin v (x + m)).
    { intros x. replace (x - n) with (x + m) by (unfold m; lia). destruct (Z.leb_spec 0 x); [|reflexivity]. cbn [andb]. destruct (Z.leb_spec x vmax); [reflexivity|]. rewrite vin_high; [reflexivity|rewrite L; ints]. }
    assert (Lk : Z.of_nat (length (skipn k v)) = Z.max 0 (Z.of_nat sz - m / 64)) by (rewrite skipn_length, L; lia).
    assert (I1 : forall x, vin v1 x = (0 <=? x) && vin v (x + 64 * (m / 64))).
    { intros x. unfold v1. rewrite vin_app, vin_zeros, Lk, vin_skipn, Zk. destruct (Z.ltb_spec x (64 * Z.max 0 (Z.of_nat sz - m / 64))); [reflexivity|]. destruct (Z.leb_spec 0 x); [|reflexivity]. rewrite vin_high; [reflexivity|rewrite L; lia]. }
    destruct (Z.eqb_spec b 0) as [B0|B0].
    + exists v1. split; [reflexivity|]. split; [now split|]. intros x. rewrite I1, Hx. now replace (x + 64 * (m / 64)) with (x + m) by lia.
    + destruct (shr_ok b ltac:(lia) (firstn (sz - k) v1) (forall_firstn _ _ _ F1)) as [S1 [S2 [_ S3]]]. eexists. split; [reflexivity|]. split.
      * split; [rewrite app_length, S1, <- app_length, firstn_skipn; exact L1|]. apply Forall_app. split; [exact S2|now apply forall_skipn].
      * intros x. rewrite vin_app, S1, firstn_length, L1, S3, vin_firstn, vin_skipn, !I1, Hx. replace (Nat.min (sz - k) sz) with (sz - k)%nat by lia. replace (Z.of_nat (sz - k)) with (Z.max 0 (Z.of_nat sz - m / 64)) by lia.
        destruct (Z.leb_spec 0 x); cbn [andb].
        -- destruct (Z.ltb_spec x (64 * Z.max 0 (Z.of_nat sz - m / 64))).
           ++ destruct (Z.leb_spec 0 (x + b)); [|lia]. cbn [andb]. replace (x + b + 64 * (m / 64)) with (x + m) by lia. destruct (Z.ltb_spec (x + b) (64 * Z.max 0 (Z.of_nat sz - m / 64))); [reflexivity|]. symmetry. apply vin_high. rewrite L. lia.
           ++ rewrite (vin_high v (x + m)) by (rewrite L; lia). rewrite (vin_high v) by (rewrite L; lia). now rewrite !andb_false_r.
        -- destruct (Z.leb_spec 0 (x - 64 * Z.max 0 (Z.of_nat sz - m / 64))); [lia|]. destruct (Z.ltb_spec x (64 * Z.max 0 (Z.of_nat sz - m / 64))); reflexivity.
Qed.

Theorem Add_Value_ok a r n T : around_ok a -> operand sz r T -> INT_MIN < n <= INT_MAX -> INT_MIN < rmin r + n -> is_int (rmax r + n) ->
  exists r', Range_Add_Value sz a r n = Ret r' /\ rok sz r' /\ covers r' (fun x => T (x - n)) /\ (0 <= n -> means sz r' (fun x => T (x - n))).
Proof.
  intros A O Bn Bp Bq. pose proof O as [R [P [M [N X]]]]. unfold Range_Add_Value. destruct (Z.eqb_spec n 0) as [->|N0]; cbn [orb].
  { exists r. split; [reflexivity|]. split; [exact R|]. assert (M' : means sz r (fun x => T (x - 0))) by (intros x Hx Hb; rewrite Z.sub_0_r; now apply M). split; [|auto]. apply (means_covers sz r _ M' R); [intros x Q; apply N in Q; lia|]. destruct (vec r); eauto. }
  destruct (Is_Empty r) eqn:Er.
  { apply empty_true in Er. exists r. split; [reflexivity|]. split; [exact R|]. pose proof (empty_T sz r T O Er) as E. split; [split; [intros x Hx Q; now apply rin_empty in Q|intros _ x Hx Q; now apply E in Q]|]. intros _ x Hx _. split; [intros Q; now apply rin_empty in Q|intros Q; now apply E in Q]. }
  apply empty_false in Er. pose proof R as [Ra [Rb Rc]]. destruct (vec r) as [v|] eqn:E.
  - pose proof (rok_vec _ _ _ R E) as V. destruct (rok_bounds _ r v R E Er) as [B1 B2]. destruct Rc as [_ Rc]. destruct (Rc Er) as [C1 [C2 C3]]. destruct (Add_Value_v v n V ltac:(ints) ltac:(lia)) as [v' [Q1 [Q2 Q3]]]. rewrite Q1. cbn [bind]. rewrite !ck_ok by ints. cbn [bind extra_cstr rmin].
    assert (I : forall x, rin r x <-> vin v x = true) by (intros; now apply rok_rin with (sz := sz)).
    assert (Me : forall x, vin v' x = true -> T (x - n)).
    { intros x Q. rewrite Q3 in Q. apply andb_prop in Q. destruct Q as [Q Q']. pose proof (vin_range _ _ _ V Q'). apply (M (x - n)); [lia|right; lia|now apply I]. }
    assert (Me1 : extra_cstr r || (vmax <? rmax r + n) = false -> forall x, 0 <= x -> T (x - n) -> vin v' x = true).
    { intros Q x Hx Tx. apply orb_false_elim in Q. destruct Q as [Qa Qb]. apply Z.ltb_ge in Qb. assert (Tv : vin v (x - n) = true) by (apply I; apply (M (x - n)); auto). rewrite Q3, Tv. specialize (C3 _ Tv). rewrite andb_true_r. apply andb_true_intro. split; apply Z.leb_le; lia. }
    assert (Me2 : 0 <= n -> forall x, 0 <= x -> x <= vmax -> T (x - n) -> vin v' x = true).
    { intros Pn x Hx Hb Tx. assert (Tv : vin v (x - n) = true) by (apply I; apply (M (x - n)); auto; right; lia). rewrite Q3, Tv. rewrite andb_true_r. apply andb_true_intro. split; apply Z.leb_le; lia. }
    set (e := extra_cstr r || (vmax <? rmax r + n)) in *. destruct (e || (rmin r + n <? 0)) eqn:Ec.
    + destruct (From_Vector_ok sz small a e (rmin r + n) (rmax r + n) v' A Q2 ltac:(ints)) as [r' [F1 [F2 [F3 [F4 F5]]]]]. exists r'. split; [exact F1|]. split; [exact F4|]. split; [split|].
      * intros x Hx Q. apply Me. now apply F5.
      * rewrite F3. intros Q x Hx Tx. apply F5. now apply Me1.
      * rewrite <- F3 in Me1. intros Pn x Hx Hb. rewrite F5. split; [apply Me|]. destruct Hb as [Hb|Hb]; [now apply Me1|now apply Me2].
    + apply orb_false_elim in Ec. destruct Ec as [Ee Ep]. apply Z.ltb_ge in Ep. eexists. split; [reflexivity|].
      assert (Hq : rmax r + n <= vmax) by (unfold e in Ee; apply orb_false_elim in Ee; destruct Ee as [_ Ee]; now apply Z.ltb_ge in Ee).
      assert (Rg : forall x, vin v' x = true -> rmin r + n <= x <= rmax r + n) by (intros x Q; rewrite Q3 in Q; apply andb_prop in Q; destruct Q as [_ Q]; specialize (C3 _ Q); lia).
      assert (In' : forall x, 0 <= x -> vin v' x = true <-> T (x - n)) by (intros x Hx; split; [apply Me|now apply Me1]).
      split; [|split; [split|]].
      * split; [cbn; ints|]. split; [cbn; ints|]. cbn [vec rmin rmax]. split; [exact Q2|]. intros _. rewrite !Q3. replace (rmin r + n - n) with (rmin r) by lia. replace (rmax r + n - n) with (rmax r) by lia. rewrite C1, C2. split; [apply andb_true_intro; split; [apply andb_true_intro; split; apply Z.leb_le; lia|reflexivity]|]. split; [apply andb_true_intro; split; [apply andb_true_intro; split; apply Z.leb_le; lia|reflexivity]|exact Rg].
      * intros x Hx [_ Q]. now apply Me.
      * intros _ x Hx Tx. pose proof (Me1 Ee x Hx Tx) as Q. split; [now apply Rg|exact Q].
      * intros Pn x Hx Hb. unfold rin. cbn [rmin rmax vec]. rewrite (In' x Hx). split; [tauto|]. intros Tx. split; [apply Rg; now apply In'|exact Tx].
  - destruct (interval_T sz r T O E) as [X1 X2]. rewrite !ck_ok by ints. cbn [bind]. eexists. split; [reflexivity|].
    assert (Q : forall x, rin (Range (extra_cstr r) (rmin r + n) (rmax r + n) None) x <-> T (x - n)) by (intros x; rewrite X2; unfold rin; cbn; lia).
    split; [split; [cbn; ints|split; [cbn; ints|exact X1]]|]. split; [split; [intros x Hx|intros _ x Hx]; apply Q|]. intros _ x Hx _. apply Q.
Qed.
Theorem Mul_Value_ok junk a r n T : vok sz junk -> around_ok a -> operand sz r T -> 0 <= n -> (rmin r <= rmax r -> rmin r <= vmax) -> is_int (rmax r * n) ->
  exists r', Range_Mul_Value sz junk a r n = Ret r' /\ rok sz r' /\ means sz r' (fun x => exists y, T y /\ x = y * n).
Proof.
  intros J A O Hn Cv Bi. pose proof O as [R [P [M [N X]]]]. unfold Range_Mul_Value. destruct (Z.eqb_spec n 1) as [->|N1]; cbn [orb].
  { exists r. split; [reflexivity|]. split; [exact R|]. intros x Hx Hb. rewrite (M x Hx Hb). split; [intros Q; exists x; split; [exact Q|lia]|intros [y [Q ->]]; now replace (y * 1) with y by lia]. }
  destruct (Is_Empty r) eqn:Er.
  { apply empty_true in Er. exists r. split; [reflexivity|]. split; [exact R|]. pose proof (empty_T sz r T O Er) as E. intros x Hx _. split; [intros Q; now apply rin_empty in Q|intros [y [Q _]]; now apply E in Q]. }
  apply empty_false in Er. specialize (Cv Er).
  destruct (sparse_copy_ok sz small junk r J R) as [s0 [v0 [Z1 [Z2 [_ [_ [Z5 [_ [Z7 Z8]]]]]]]]].
  destruct (conv sz small junk r T J O Er Cv) as [s [v [S1 [S2 [S3 [S4 [S5 [S6 [S7 [S8 [S9 [S10 [S11 [S12 [S13 [S14 _]]]]]]]]]]]]]]]].
  assert (Hmx : rmax s <= rmax r).
  { rewrite S1 in Z1. injection Z1 as <-. pose proof (proj1 (Z5 (rmax s)) (proj2 (S9 (rmax s)) S13)) as Q. destruct Q as [_ [Q _]]. lia. }
  rewrite S1. cbn [bind]. unfold the_vec. rewrite S2. unfold Vector_Mul_Value. destruct (enum_ok v) as [So Me].
  assert (Ck : forall b, In b (enum v) -> 0 <= b * n /\ is_int (b * n)).
  { intros b Ib. apply Me in Ib. pose proof (S14 b Ib). unfold is_int, INT_MIN, INT_MAX in *. assert (0 <= b * n <= rmax r * n) by nia. lia. }
  destruct (inner_ok sz small (fun a => do x <- ck (a * n); Ret (if beyond sz x then Stop else Put x)) (enum v) (Vector_Empty sz) (proj1 (Empty_ok sz)) So) as [v' [I1 [I2 I3]]].
  { intros b Ib. destruct (Ck b Ib) as [K1 K2]. rewrite ck_ok by exact K2. cbn [bind]. eexists. split; [reflexivity|]. rewrite (beyond_ok sz small) by exact K2. destruct (Z.ltb_spec (b * n) 0); [lia|]. cbn [orb]. destruct (Z.ltb_spec vmax (b * n)); [exact I|lia]. }
  { intros b b' Ib Ib' L. destruct (Ck b Ib) as [K1 K2]. destruct (Ck b' Ib') as [K3 K4]. rewrite !ck_ok by assumption. cbn [bind]. rewrite !(beyond_ok sz small) by assumption. destruct (Z.ltb_spec (b * n) 0); [lia|]. destruct (Z.ltb_spec (b' * n) 0); [lia|]. cbn [orb]. destruct (Z.ltb_spec vmax (b * n)), (Z.ltb_spec vmax (b' * n)); try reflexivity; [nia|discriminate]. }
  rewrite I1. cbn [bind].
  assert (I4 : forall x, vin v' x = true <-> x <= vmax /\ exists y, vin v y = true /\ x = y * n).
  { intros x. rewrite I3, (proj2 (Empty_ok sz)). split.
    - intros [Q|[b [Ib Q]]]; [discriminate|]. destruct (Ck b Ib) as [K1 K2]. rewrite ck_ok in Q by exact K2. cbn [bind] in Q. rewrite (beyond_ok sz small) in Q by exact K2. destruct (Z.ltb_spec (b * n) 0); [lia|]. cbn [orb] in Q. destruct (Z.ltb_spec vmax (b * n)); [discriminate|]. injection Q as <-. split; [assumption|]. exists b. split; [now apply Me|reflexivity].
    - intros [Lx [y [Y ->]]]. right. apply Me in Y. exists y. split; [exact Y|]. destruct (Ck y Y) as [K1 K2]. rewrite ck_ok by exact K2. cbn [bind]. rewrite (beyond_ok sz small) by exact K2. destruct (Z.ltb_spec (y * n) 0); [lia|]. cbn [orb]. destruct (Z.ltb_spec vmax (y * n)); [lia|reflexivity]. }
  assert (Bp : 0 <= rmin s * n <= rmax s * n) by nia. assert (Bq : rmax s * n <= rmax r * n) by nia. rewrite !ck_ok by (unfold is_int, INT_MIN, INT_MAX in *; lia). cbn [bind extra_cstr].
  assert (Me' : forall x, 0 <= x -> extra_cstr s || (vmax <? rmax s * n) = false \/ x <= vmax -> (vin v' x = true <-> exists y, T y /\ x = y * n)).
  { intros x Hx Hb. rewrite I4. split.
    - intros [_ [y [Y ->]]]. exists y. auto.
    - intros [y [Y ->]]. pose proof (N y Y) as Py. destruct Hb as [Hb|Hb].
      + apply orb_false_elim in Hb. destruct Hb as [Hb1 Hb2]. apply Z.ltb_ge in Hb2. pose proof (S11 y Y (or_introl Hb1)) as Vy. pose proof (S14 y Vy). split; [nia|]. exists y. auto.
      + split; [exact Hb|]. destruct (Z.eq_dec n 0) as [->|Nz]; [exists (rmin s); split; [exact S12|lia]|]. exists y. split; [|reflexivity]. apply S11; [exact Y|]. right. nia. }
  set (e := extra_cstr s || (vmax <? rmax s * n)) in *. destruct e eqn:Ee.
  - destruct (From_Vector_ok sz small a true (rmin s * n) (rmax s * n) v' A I2 ltac:(unfold is_int, INT_MIN, INT_MAX in *; lia)) as [r' [F1 [F2 [F3 [F4 F5]]]]]. exists r'. split; [exact F1|]. split; [exact F4|]. intros x Hx Hb. rewrite F5. rewrite F3 in Hb. now apply Me'.
  - eexists. split; [reflexivity|]. apply orb_false_elim in Ee. destruct Ee as [_ Ee]. apply Z.ltb_ge in Ee.
    assert (Rg : forall x, vin v' x = true -> rmin s * n <= x <= rmax s * n) by (intros x Q; apply I4 in Q; destruct Q as [_ [y [Y ->]]]; specialize (S14 _ Y); nia).
    split.
    + split; [cbn [rmin]; unfold is_int, INT_MIN, INT_MAX in *; lia|]. split; [cbn [rmax]; unfold is_int, INT_MIN, INT_MAX in *; lia|]. cbn [vec rmin rmax]. split; [exact I2|]. intros _. split; [apply I4; split; [lia|]; eauto|]. split; [apply I4; split; [lia|]; eauto|exact Rg].
    + intros x Hx Hb. unfold rin. cbn [rmin rmax vec]. rewrite (Me' x Hx (or_introl eq_refl)). split; [tauto|]. intros Q. split; [|exact Q]. apply Rg. now apply Me'; auto.
Qed.
Theorem Div_Value_ok junk a r n T : vok sz junk -> around_ok a -> operand sz r T -> 1 <= n <= INT_MAX -> (rmin r <= rmax r -> rmin r <= vmax) -> is_int (vmax + n) ->
  (forall v, vec r = Some v -> extra_cstr r = false -> (n | rmin r) /\ (n | rmax r)) ->
  exists r', Range_Div_Value sz junk a r n = Ret r' /\ rok sz r' /\ covers r' (fun x => T (n * x)).
Proof.
  intros J A O Hn Cv Bi Dv. pose proof O as [R [P [M [N X]]]]. unfold Range_Div_Value. destruct (Z.eqb_spec n 1) as [->|N1]; cbn [orb].
  { exists r. split; [reflexivity|]. split; [exact R|]. apply (means_covers sz r); auto.
    - intros x Hx Hb. rewrite (M x Hx Hb). now replace (1 * x) with x by lia.
    - intros x Q. apply N in Q. lia.
    - destruct (vec r); eauto. }
  destruct (Is_Empty r) eqn:Er.
  { apply empty_true in Er. exists r. split; [reflexivity|]. split; [exact R|]. pose proof (empty_T sz r T O Er) as E. split; [intros x Hx Q; now apply rin_empty in Q|intros _ x Hx Q; now apply E in Q]. }
  apply empty_false in Er. specialize (Cv Er).
  destruct (sparse_copy_ok sz small junk r J R) as [s0 [v0 [Z1 [Z2 [_ [_ [Z5 [_ [Z7 Z8]]]]]]]]].
  destruct (conv sz small junk r T J O Er Cv) as [s [v [S1 [S2 [S3 [S4 [S5 [S6 [S7 [S8 [S9 [S10 [S11 [S12 [S13 [S14 _]]]]]]]]]]]]]]]].
  rewrite S1 in Z1. injection Z1 as <-.
  rewrite S1. cbn [bind]. unfold the_vec. rewrite S2. unfold Vector_Div_Value. destruct (Z.eqb_spec n 0) as [|Nz]; [lia|]. destruct (enum_ok v) as [So Me].
  destruct (inner_ok sz small (fun a => Ret (if Z.rem a n =? 0 then Put (Z.quot a n) else Skip)) (enum v) (Vector_Empty sz) (proj1 (Empty_ok sz)) So) as [v' [I1 [I2 I3]]].
  { intros b Ib. pose proof (enum_range sz v b S4 Ib). eexists. split; [reflexivity|]. destruct (Z.rem b n =? 0); [|exact I]. pose proof (Z.quot_pos b n ltac:(lia) ltac:(lia)). pose proof (Z.quot_le_upper_bound b n b ltac:(lia) ltac:(nia)). lia. }
  { intros b b' Ib Ib' L. destruct (Z.rem b n =? 0); discriminate. }
  rewrite I1. cbn [bind]. rewrite ck_ok by ints. cbn [bind]. rewrite ck_ok by ints. cbn [bind extra_cstr].
  assert (I4 : forall x, vin v' x = true <-> vin v (n * x) = true).
  { intros x. rewrite I3, (proj2 (Empty_ok sz)). split.
    - intros [Q|[b [Ib Q]]]; [discriminate|]. destruct (Z.eqb_spec (Z.rem b n) 0) as [D|D]; [|discriminate]. injection Q as <-. apply Z.quot_exact in D; [|lia]. rewrite <- D. now apply Me.
    - intros Q. right. exists (n * x). split; [now apply Me|]. rewrite Z.mul_comm, Z.rem_mul, Z.quot_mul by lia. reflexivity. }
  rewrite !Z.quot_div_nonneg by lia. set (p := (rmin s + n - 1) / n). set (q := rmax s / n).
  assert (Hp : n * p <= rmin s + n - 1 < n * p + n) by (unfold p; pose proof (Z.div_mod (rmin s + n - 1) n ltac:(lia)); pose proof (Z.mod_pos_bound (rmin s + n - 1) n ltac:(lia)); lia).
  assert (Hq : n * q <= rmax s < n * q + n) by (unfold q; pose proof (Z.div_mod (rmax s) n ltac:(lia)); pose proof (Z.mod_pos_bound (rmax s) n ltac:(lia)); lia).
  assert (P0 : 0 <= p) by (apply Z.div_pos; lia). assert (Q0 : 0 <= q) by (apply Z.div_pos; lia). assert (Q1 : q <= rmax s) by nia. assert (P1 : p <= rmin s) by nia.
  replace (vmax <? q) with false by (symmetry; apply Z.ltb_ge; lia). rewrite orb_false_r.
  assert (Co : extra_cstr s = false -> forall x, 0 <= x -> T (n * x) -> vin v' x = true) by (intros Q x Hx Tx; apply I4; apply S11; auto).
  destruct (extra_cstr s) eqn:Ee.
  - destruct (From_Vector_ok sz small a true p q v' A I2 ltac:(ints)) as [r' [F1 [F2 [F3 [F4 F5]]]]]. exists r'. split; [exact F1|]. split; [exact F4|]. split; [intros x Hx Q; apply F5 in Q; apply I4 in Q; auto|]. rewrite F3. discriminate.
  - eexists. split; [reflexivity|].
    assert (Rg : forall x, vin v' x = true -> p <= x <= q) by (intros x Q; apply I4 in Q; specialize (S14 _ Q); nia).
    split; [|split].
    + split; [cbn [rmin]; ints|]. split; [cbn [rmax]; ints|]. cbn [vec rmin rmax]. split; [exact I2|]. intros Lpq.
      assert (G : vin v (n * p) = true /\ vin v (n * q) = true).
      { destruct (vec r) as [w|] eqn:E.
        - assert (Es : s = r) by exact (Z7 w eq_refl). rewrite Es in Ee, Hp, Hq, S12, S13. destruct (Dv w eq_refl Ee) as [[c Hc] [d Hd]]. assert (Ec : c = p) by nia. assert (Ed : d = q) by nia. replace (n * p) with (rmin r) by (rewrite Hc, Ec; lia). replace (n * q) with (rmax r) by (rewrite Hd, Ed; lia). auto.
        - destruct (interval_T sz r T O E) as [_ X2]. pose proof (S10 _ S12) as Y1. pose proof (S10 _ S13) as Y2. apply X2 in Y1. apply X2 in Y2. split; apply S11; auto; apply X2; nia. }
      split; [now apply I4|]. split; [now apply I4|exact Rg].
    + intros x Hx [_ Q]. cbn in Q. apply I4 in Q. auto.
    + intros _ x Hx Tx. pose proof (Co eq_refl x Hx Tx) as Q. split; [now apply Rg|exact Q].
Qed.
Theorem Mod_Value_sparse_ok junk junk1 a r n v T : around_ok a -> operand sz r T -> vec r = Some v -> INT_MIN < n <= INT_MAX -> n <> 0 ->
  exists r', Range_Mod_Value sz junk junk1 a r n = Ret r' /\ rok sz r' /\ covers r' (fun x => exists y, T y /\ x = Z.rem y n).
Proof.
  intros A O E Hn N0. pose proof O as [R [P [M [N X]]]]. unfold Range_Mod_Value. destruct (Is_Empty r) eqn:Er.
  { apply empty_true in Er. exists r. split; [reflexivity|]. split; [exact R|]. pose proof (empty_T sz r T O Er) as Em. split; [intros x Hx Q; now apply rin_empty in Q|intros _ x Hx [y [Q _]]; now apply Em in Q]. }
  apply empty_false in Er.
  assert (Q : (if n <? 0 then ck (- n) else Ret n) = Ret (Z.abs n)) by (destruct (Z.ltb_spec n 0); [rewrite ck_ok by ints; f_equal; lia|f_equal; lia]). rewrite Q. cbn [bind]. rewrite E. set (m := Z.abs n). assert (Pm : 0 < m) by lia.
  assert (Rm : forall y, Z.rem y n = Z.rem y m) by (intros y; unfold m; symmetry; apply Z.rem_abs_r; exact N0).
  pose proof (rok_vec _ _ _ R E) as V. destruct (enum_ok v) as [So Me]. unfold Vector_Mod_Value. destruct (Z.eqb_spec m 0); [lia|].
  assert (Rb : forall b, In b (enum v) -> 0 <= Z.rem b m <= vmax) by (intros b Ib; pose proof (enum_range sz v b V Ib); pose proof (Z.rem_bound_pos b m ltac:(lia) ltac:(lia)); pose proof (Z.rem_le b m ltac:(lia) ltac:(lia)); lia).
  assert (Bf : forall b, In b (enum v) -> beyond sz (Z.rem b m) = false) by (intros b Ib; specialize (Rb b Ib); rewrite (beyond_ok sz small) by ints; apply orb_false_intro; apply Z.ltb_ge; lia).
  destruct (inner_ok sz small (fun a => Ret (if beyond sz (Z.rem a m) then Skip else Put (Z.rem a m))) (enum v) (Vector_Empty sz) (proj1 (Empty_ok sz)) So) as [v' [I1 [I2 I3]]].
  { intros b Ib. cbv zeta. rewrite (Bf b Ib). eexists. split; [reflexivity|]. now apply Rb. }
  { intros b b' Ib Ib' L. cbv zeta. rewrite (Bf b Ib). discriminate. }
  cbv zeta. rewrite I1. cbn [bind]. destruct (From_Vector_ok sz small a (extra_cstr r) (rmin r) (rmax r) v' A I2 (proj1 R)) as [r' [F1 [F2 [F3 [F4 F5]]]]]. exists r'. split; [exact F1|]. split; [exact F4|].
  assert (I : forall x, rin r x <-> vin v x = true) by (intros; now apply rok_rin with (sz := sz)). split.
  - intros x Hx Y. apply F5 in Y. apply I3 in Y. rewrite (proj2 (Empty_ok sz)) in Y. destruct Y as [Y|[b [Ib Y]]]; [discriminate|]. cbv zeta in Y. rewrite (Bf b Ib) in Y. injection Y as <-. exists b. split; [|now rewrite Rm]. apply Me in Ib. pose proof (vin_range _ _ _ V Ib). apply (M b); [lia|right; lia|now apply I].
  - rewrite F3. intros Y x Hx [y [Ty ->]]. apply F5. apply I3. right. assert (Vy : vin v y = true) by (apply I; apply (M y); auto). apply Me in Vy. exists y. split; [exact Vy|]. cbv zeta. rewrite (Bf y Vy). now rewrite Rm.
Qed.
Lemma rem_of m k y : 0 < m -> 0 <= m * k -> 0 <= y < m -> Z.rem (m * k + y) m = y.
Proof. intros A B C. rewrite Z.rem_mod_nonneg by lia. rewrite Z.add_comm, Z.mul_comm, Z.mod_add by lia. apply Z.mod_small. lia. Qed.
Lemma rem_neg y m : y <= 0 -> 0 < m -> - m < Z.rem y m <= 0.
Proof. clear. intros A B. pose proof (Z.rem_bound_pos (- y) m ltac:(lia) B) as H. rewrite Z.rem_opp_l in H by lia. lia. Qed.
(** on intervals of any integers *)
Theorem Mod_Value_interval_ok junk junk1 a r n : vok sz junk -> vok sz junk1 -> rok sz r -> vec r = None -> INT_MIN < n <= INT_MAX -> n <> 0 -> is_int (rmax r - rmin r + 1) ->
  exists r', Range_Mod_Value sz junk junk1 a r n = Ret r' /\ rok sz r' /\ means sz r' (fun x => exists y, rmin r <= y <= rmax r /\ x = Z.rem y n).
Proof.
  intros J J1 R E Hn N0 Bd. pose proof R as [Ra [Rb Rc]]. rewrite E in Rc. unfold Range_Mod_Value. destruct (Is_Empty r) eqn:Er.
  { apply empty_true in Er. exists r. split; [reflexivity|]. split; [exact R|]. intros x Hx _. split; [intros Q; now apply rin_empty in Q|intros [y [Q _]]; lia]. }
  apply empty_false in Er.
  assert (Q : (if n <? 0 then ck (- n) else Ret n) = Ret (Z.abs n)) by (destruct (Z.ltb_spec n 0); [rewrite ck_ok by ints; f_equal; lia|f_equal; lia]). rewrite Q. cbn [bind]. rewrite E. clear Q. set (m := Z.abs n). assert (Pm : 0 < m) by lia. assert (Bm : m <= INT_MAX) by (unfold m; ints).
  assert (Rm : forall y, Z.rem y n = Z.rem y m) by (intros y; unfold m; symmetry; apply Z.rem_abs_r; exact N0).
  assert (Itv : forall p q, INT_MIN < p <= INT_MAX -> is_int q -> (forall x, 0 <= x -> (p <= x <= q <-> exists y, rmin r <= y <= rmax r /\ x = Z.rem y m)) ->
    exists r', Ret (Range (extra_cstr r) p q None) = Ret r' /\ rok sz r' /\ means sz r' (fun x => exists y, rmin r <= y <= rmax r /\ x = Z.rem y n)).
  { intros p q Bp Bq H. eexists. split; [reflexivity|]. split; [split; [exact Bp|split; [exact Bq|exact Rc]]|]. intros x Hx _. unfold rin. cbn. split.
    - intros [Y _]. apply (H x Hx) in Y. destruct Y as [y [Y1 Y2]]. exists y. now rewrite Rm.
    - intros [y [Y1 Y2]]. split; [|exact I]. apply (H x Hx). exists y. now rewrite <- Rm. }
  assert (Uni : forall p q p1 q1, INT_MIN < p <= INT_MAX -> is_int q -> q < INT_MAX -> INT_MIN < p1 <= INT_MAX -> is_int q1 -> q1 < INT_MAX -> (forall x, 0 <= x -> (p <= x <= q \/ p1 <= x <= q1 <-> exists y, rmin r <= y <= rmax r /\ x = Z.rem y m)) ->
    exists r', Range_Union sz junk junk1 (Range (extra_cstr r) p q None) (Range_Interval p1 q1) = Ret r' /\ rok sz r' /\ means sz r' (fun x => exists y, rmin r <= y <= rmax r /\ x = Z.rem y n)).
  { intros p q p1 q1 B1 B2 B3 B4 B5 B6 H.
    assert (Is : forall e p q, e = false -> means sz (Range e p q None) (fun x => p <= x <= q)) by (intros e p0 q0 -> x Hx _; unfold rin; cbn; tauto).
    destruct (Union_ok sz small junk junk1 (Range (extra_cstr r) p q None) (Range_Interval p1 q1) (fun x => p <= x <= q) (fun x => p1 <= x <= q1) J J1) as [r' [U1 [U2 U3]]]; try (cbn; assumption).
    - split; [exact B1|]. split; [exact B2|exact Rc].
    - split; [exact B4|]. split; [exact B5|reflexivity].
    - now apply Is.
    - now apply Is.
    - exists r'. split; [exact U1|]. split; [exact U2|]. intros x Hx Hb. rewrite (U3 x Hx Hb), (H x Hx). split; intros [y [Y1 Y2]]; exists y; now rewrite ?Rm, <- ?Rm in *. }
  pose proof (Z.quot_rem' (rmin r) m) as D1. pose proof (Z.quot_rem' (rmax r) m) as D2. set (k := Z.quot (rmin r) m) in *. set (l := Z.quot (rmax r) m) in *. set (p := Z.rem (rmin r) m) in *. set (q := Z.rem (rmax r) m) in *.
  destruct (Z.leb_spec 0 (rmin r)) as [G|G].
  - rewrite ck_ok by ints. cbn [bind]. rewrite ck_ok by ints. cbn [bind]. assert (P1 : 0 <= p < m) by (apply Z.rem_bound_pos; lia). assert (Q1 : 0 <= q < m) by (apply Z.rem_bound_pos; lia). assert (K0 : 0 <= k) by (apply Z.quot_pos; lia). assert (L0 : 0 <= l) by (apply Z.quot_pos; lia).
    assert (Bnd : forall y, rmin r <= y -> 0 <= Z.rem y m < m) by (intros; apply Z.rem_bound_pos; lia).
    destruct (Z.leb_spec m (rmax r - rmin r + 1)) as [F|F].
    + apply Itv; [ints|ints|]. intros x Hx. split.
      * intros Y. destruct (Z.le_gt_cases p x).
        -- exists (m * k + x). split; [lia|]. now rewrite rem_of by nia.
        -- exists (m * (k + 1) + x). split; [lia|]. now rewrite rem_of by nia.
      * intros [y [Y ->]]. pose proof (Bnd y ltac:(lia)). lia.
    + destruct (Z.ltb_spec q p) as [C|C].
      * assert (l = k + 1) by nia. apply Uni; [ints|ints|ints|ints|ints|ints|]. intros x Hx. split.
        -- intros [Y|Y]; [exists (m * k + x)|exists (m * (k + 1) + x)]; (split; [nia|]); now rewrite rem_of by nia.
        -- intros [y [Y ->]]. pose proof (Z.quot_rem' y m) as Dy. pose proof (Bnd y ltac:(lia)). set (j := Z.quot y m) in *. assert (j = k \/ j = k + 1) as [->| ->] by nia; nia.
      * assert (l = k) by nia. apply Itv; [ints|ints|]. intros x Hx. split.
        -- intros Y. exists (m * k + x). split; [nia|]. now rewrite rem_of by nia.
        -- intros [y [Y ->]]. pose proof (Z.quot_rem' y m) as Dy. pose proof (Bnd y ltac:(lia)). set (j := Z.quot y m) in *. assert (j = k) as -> by nia. nia.
  - destruct (Z.leb_spec (rmax r) 0) as [G2|G2].
    + rewrite ck_ok by ints. cbn [bind]. rewrite ck_ok by ints. cbn [bind]. assert (P1 : - m < p <= 0) by (apply rem_neg; lia). assert (Q1 : - m < q <= 0) by (apply rem_neg; lia).
      assert (Bnd : forall y, y <= 0 -> - m < Z.rem y m <= 0) by (intros; apply rem_neg; lia).
      assert (Mul : forall j, Z.rem (m * j) m = 0) by (intros j; rewrite Z.mul_comm; apply Z.rem_mul; lia).
      destruct (Z.leb_spec m (rmax r - rmin r + 1)) as [F|F].
      * apply Itv; [ints|ints|]. intros x Hx. split.
        -- intros Y. assert (x = 0) as -> by lia. destruct (Z.eq_dec q 0) as [Z0|Z0]; [exists (rmax r); split; [lia|]; fold q; lia|]. exists (m * (l - 1)). split; [|now rewrite Mul]. nia.
        -- intros [y [Y ->]]. pose proof (Bnd y ltac:(lia)). lia.
      * destruct (Z.ltb_spec q p) as [C|C].
        -- apply Uni; [ints|ints|ints|ints|ints|ints|]. intros x Hx. split.
           ++ intros Y. assert (x = 0) as -> by lia. exists (m * k). split; [|now rewrite Mul]. assert (k + 1 <= l) by nia. nia.
           ++ intros [y [Y ->]]. pose proof (Bnd y ltac:(lia)). lia.
        -- apply Itv; [ints|ints|]. intros x Hx. split.
           ++ intros Y. assert (x = 0) as -> by lia. exists (rmax r). split; [lia|]. fold q. lia.
           ++ intros [y [Y ->]]. pose proof (Bnd y ltac:(lia)). pose proof (Z.quot_rem' y m) as Dy. set (j := Z.quot y m) in *. assert (Z.rem y m = 0) as Ey by lia. rewrite Ey in *. assert (l = k) by nia. assert (j = k) by nia. nia.
    + apply Itv; [ints|ints|]. intros x Hx. split.
      * intros Y. exists x. split; [lia|]. symmetry. apply Z.rem_small. lia.
      * intros [y [Y ->]]. destruct (Z.le_gt_cases 0 y).
        -- pose proof (Z.rem_bound_pos y m ltac:(lia) ltac:(lia)). pose proof (Z.rem_le y m ltac:(lia) ltac:(lia)). lia.
        -- pose proof (rem_neg y m ltac:(lia) ltac:(lia)). lia.
Qed.
End R.
