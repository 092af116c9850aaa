Require Import ZArith Bool Lia ZifyBool Zquot.
Require Import Verif.Word_Model Verif.Arith_Model Verif.Arith_Spec.
Open Scope Z_scope.

Ltac Zify.zify_post_hook ::= Z.div_mod_to_equations.

Definition P64 : Z := 18446744073709551616.
Definition P63 : Z := 9223372036854775808.
Definition P60 : Z := 1152921504606846976.

Lemma W64_val : W64 = 18446744073709551616. Proof. reflexivity. Qed.
Lemma P60_val : 2 ^ 60 = 1152921504606846976. Proof. reflexivity. Qed.
Lemma P63_val : 2 ^ 63 = 9223372036854775808. Proof. reflexivity. Qed.
Lemma P64_val : 2 ^ 64 = 18446744073709551616. Proof. reflexivity. Qed.
Lemma INT_GREATEST_val : INT_GREATEST_VALUE = 1152921504606846975. Proof. reflexivity. Qed.
Lemma INT_LOWEST_val : INT_LOWEST_VALUE = -1152921504606846976. Proof. reflexivity. Qed.

Lemma repr_iff x : representable x <->
  -1152921504606846976 <= x <= 1152921504606846975.
Proof. unfold representable, min_integer, max_integer; rewrite P60_val; lia. Qed.

Lemma reprb_iff x : representableb x = true <-> representable x.
Proof. unfold representableb, representable; lia. Qed.

Lemma TEST_iff x : TEST_INT_OVERFLOW x = negb (representableb x).
Proof.
  unfold TEST_INT_OVERFLOW, representableb, min_integer, max_integer.
  rewrite INT_GREATEST_val, INT_LOWEST_val, P60_val. lia.
Qed.

(** 8-aligned or-ing of the tag is addition *)
Lemma lor7 z : Z.lor (8 * z) 7 = 8 * z + 7.
Proof.
  rewrite <- Z.lxor_lor, <- Z.add_nocarry_lxor; try reflexivity;
  apply Z.bits_inj'; intros n Hn; rewrite Z.land_spec, Z.bits_0;
  (destruct (Z_lt_dec n 3);
   [ replace (8 * z) with (z * 2 ^ 3) by lia;
     rewrite Z.mul_pow2_bits_low by lia; reflexivity
   | replace 7 with (Z.ones 3) by reflexivity;
     rewrite Z.ones_spec_high by lia; apply andb_false_r ]).
Qed.

Lemma Tag_INT_val v : Tag_INT_ v = 8 * (v mod 2305843009213693952) + 7.
Proof.
  unfold Tag_INT_, TAG_MASK, u64. rewrite Z.shiftl_mul_pow2 by lia.
  change (2 ^ 3) with 8. rewrite W64_val.
  rewrite <- (lor7 (v mod 2305843009213693952)). f_equal.
  lia.
Qed.

Lemma s64_id z : - 9223372036854775808 <= z < 9223372036854775808 -> s64 z = z.
Proof. intros; unfold s64; rewrite P63_val, W64_val. lia. Qed.

Lemma u64_id z : 0 <= z < 18446744073709551616 -> u64 z = z.
Proof. intros; unfold u64; rewrite W64_val. lia. Qed.

Lemma UnTag_Tag v : representable v -> UnTag_INT_ (Tag_INT_ v) = v.
Proof.
  rewrite repr_iff; intros H. unfold UnTag_INT_.
  rewrite Z.shiftr_div_pow2 by lia. change (2 ^ 3) with 8.
  rewrite Tag_INT_val. rewrite u64_id by lia.
  unfold s64; rewrite P63_val, W64_val. lia.
Qed.

Lemma Tag_INT_range v : 0 <= Tag_INT_ v < W64.
Proof. rewrite Tag_INT_val, W64_val. lia. Qed.

Lemma Tag_Is_INT_Tag v : Tag_Is_INT (Tag_INT_ v) = true.
Proof.
  unfold Tag_Is_INT, Tag_Mask_Of. change TAG_MASK with (Z.ones 3).
  rewrite Z.land_ones by lia. change (2^3) with 8.
  rewrite Tag_INT_val, u64_id by lia. unfold TAG_INT. lia.
Qed.

(** the converse: any word with the INT tag is the tagging of its value *)
Lemma Tag_UnTag w : 0 <= w < W64 -> Tag_Is_INT w = true ->
  representable (UnTag_INT_ w) /\ Tag_INT_ (UnTag_INT_ w) = w.
Proof.
  intros Hr Ht. unfold Tag_Is_INT, Tag_Mask_Of in Ht.
  change TAG_MASK with (Z.ones 3) in Ht. rewrite Z.land_ones in Ht by lia.
  change (2^3) with 8 in Ht. rewrite W64_val in Hr. rewrite u64_id in Ht by lia.
  unfold TAG_INT in Ht.
  rewrite Tag_INT_val, repr_iff.
  unfold UnTag_INT_. rewrite Z.shiftr_div_pow2 by lia. change (2 ^ 3) with 8.
  rewrite u64_id by lia. unfold s64; rewrite P63_val, W64_val. lia.
Qed.

Lemma Tag_INT_inj x y : representable x -> representable y ->
  Tag_INT_ x = Tag_INT_ y -> x = y.
Proof. intros Hx Hy E. rewrite <- (UnTag_Tag x Hx), <- (UnTag_Tag y Hy), E; reflexivity. Qed.

Lemma exactly_ok x : answer_ok (exactly x).
Proof.
  unfold exactly. destruct (representableb x) eqn:E; cbn; auto. now apply reprb_iff.
Qed.

Lemma decode_encode a : answer_ok a -> decode (encode a) = Some a.
Proof.
  destruct a; cbn [decode encode answer_ok]; intros H; auto;
    rewrite Tag_Is_INT_Tag, UnTag_Tag; auto.
Qed.

Lemma enc_exact z : representable z -> encode (exactly z) = Ok (Tag_INT_ z).
Proof. intros H. unfold exactly. apply reprb_iff in H. rewrite H. reflexivity. Qed.

Lemma enc_over z : ~ representable z -> encode (exactly z) = Err_Overflow.
Proof.
  intros H. unfold exactly. destruct (representableb z) eqn:E; auto.
  apply reprb_iff in E; contradiction.
Qed.

Ltac rp := repeat match goal with H : representable _ |- _ => rewrite repr_iff in H end.

Ltac two_cases z :=
  destruct (representableb z) eqn:?E;
  [ rewrite enc_exact by (now apply reprb_iff); try apply reprb_iff in E
  | rewrite enc_over by (rewrite <- reprb_iff; congruence);
    apply not_true_iff_false in E; rewrite reprb_iff in E ].

Lemma neg_ok x : representable x -> Fast_Neg (Tag_INT_ x) = encode (spec1 ONeg x).
Proof.
  intros H. unfold Fast_Neg. rewrite UnTag_Tag by auto. cbn [spec1].
  two_cases (- x); rewrite repr_iff in *; destruct (Z.eqb_spec x INT_LOWEST_VALUE);
    rewrite INT_LOWEST_val in *; auto; lia.
Qed.

Lemma inc_ok x : representable x -> Fast_Inc (Tag_INT_ x) = encode (spec1 OInc x).
Proof.
  intros H. unfold Fast_Inc. rewrite UnTag_Tag by auto. cbn [spec1].
  two_cases (x+1); rewrite repr_iff in *; destruct (Z.eqb_spec x INT_GREATEST_VALUE);
    rewrite INT_GREATEST_val in *; auto; lia.
Qed.

Lemma dec_ok x : representable x -> Fast_Dec (Tag_INT_ x) = encode (spec1 ODec x).
Proof.
  intros H. unfold Fast_Dec. rewrite UnTag_Tag by auto. cbn [spec1].
  two_cases (x-1); rewrite repr_iff in *; destruct (Z.eqb_spec x INT_LOWEST_VALUE);
    rewrite INT_LOWEST_val in *; auto; lia.
Qed.

Lemma abs_ok x : representable x -> Fast_Abs (Tag_INT_ x) = encode (spec1 OAbs x).
Proof.
  intros H. unfold Fast_Abs. rewrite UnTag_Tag by auto. cbn [spec1].
  two_cases (Z.abs x); rewrite repr_iff in *; destruct (Z.eqb_spec x INT_LOWEST_VALUE);
    rewrite INT_LOWEST_val in *; auto; try lia.
  all: f_equal; destruct (Z.ltb_spec x 0); f_equal; lia.
Qed.

Lemma sign_ok x : representable x -> Fast_Sign (Tag_INT_ x) = encode (spec1 OSign x).
Proof.
  intros H. unfold Fast_Sign. rewrite UnTag_Tag by auto. cbn [spec1].
  rewrite enc_exact by (apply repr_iff; lia).
  destruct (Z.ltb_spec x 0), (Z.eqb_spec x 0); do 2 f_equal; lia.
Qed.

Lemma not_ok x : representable x -> Fast_Not (Tag_INT_ x) = encode (spec1 ONot x).
Proof.
  intros H. unfold Fast_Not. rewrite UnTag_Tag by auto. cbn [spec1].
  rewrite enc_exact by (rewrite repr_iff in *; lia). reflexivity.
Qed.

Lemma fct1_ok o x : representable x -> fct1 o (Tag_INT_ x) = encode (spec1 o x).
Proof.
  destruct o; [apply neg_ok|apply inc_ok|apply dec_ok|apply not_ok|apply abs_ok|apply sign_ok|].
  intros H; cbn [fct1 spec1]. now rewrite enc_exact.
Qed.

Lemma add_ok x y : representable x -> representable y ->
  Fast_Add (Tag_INT_ x) (Tag_INT_ y) = encode (exactly (x + y)).
Proof.
  intros Hx Hy. unfold Fast_Add. rewrite !UnTag_Tag by auto. rp. cbv zeta.
  rewrite s64_id by lia. rewrite TEST_iff.
  unfold exactly. destruct (representableb (x+y)); reflexivity.
Qed.

Lemma sub_ok x y : representable x -> representable y ->
  Fast_Sub (Tag_INT_ x) (Tag_INT_ y) = encode (exactly (x - y)).
Proof.
  intros Hx Hy. unfold Fast_Sub. rewrite !UnTag_Tag by auto. rp. cbv zeta.
  rewrite s64_id by lia. rewrite TEST_iff.
  unfold exactly. destruct (representableb (x-y)); reflexivity.
Qed.

Lemma mul_overflow_spec a b :
  let (o, z) := mul_overflow a b in
  if o then ~ (-9223372036854775808 <= a * b < 9223372036854775808)
  else z = a * b /\ -9223372036854775808 <= a * b < 9223372036854775808.
Proof.
  unfold mul_overflow. rewrite P63_val.
  match goal with |- if ?c then _ else _ => destruct c eqn:E end; [lia|].
  rewrite s64_id by lia. lia.
Qed.

Lemma mul_ok x y : representable x -> representable y ->
  Fast_Mul (Tag_INT_ x) (Tag_INT_ y) = encode (exactly (x * y)).
Proof.
  intros Hx Hy. unfold Fast_Mul. rewrite !UnTag_Tag by auto. cbv zeta.
  pose proof (mul_overflow_spec x y) as S. destruct (mul_overflow x y) as [[] z].
  - cbn. rewrite enc_over; auto. rewrite repr_iff. lia.
  - destruct S as [-> S]. rewrite TEST_iff. cbn.
    unfold exactly. destruct (representableb (x*y)); reflexivity.
Qed.

Lemma quot_alt x y : y <> 0 -> Z.quot x y = Z.sgn x * Z.sgn y * (Z.abs x / Z.abs y).
Proof. intros. apply Z.quot_div. assumption. Qed.

Lemma abs_div_le x y : y <> 0 -> Z.abs (Z.quot x y) <= Z.abs x.
Proof.
  intros H. rewrite <- Z.quot_abs by auto. apply Z.quot_le_upper_bound; try lia. nia.
Qed.

Lemma idiv_ok x y : representable x -> representable y ->
  Fast_Integer_Div (Tag_INT_ x) (Tag_INT_ y) = encode (spec2 OIDiv x y).
Proof.
  intros Hx Hy. unfold Fast_Integer_Div. rewrite !UnTag_Tag by auto. cbv zeta. cbn [spec2].
  destruct (Z.eqb_spec y 0); auto.
  rewrite <- quot_alt by auto. unfold c_div. rp. rewrite INT_LOWEST_val.
  destruct ((x =? -1152921504606846976) && (y =? -1)) eqn:E.
  - apply andb_true_iff in E. rewrite enc_over; auto. rewrite repr_iff.
    replace x with (-1152921504606846976) by lia. replace y with (-1) by lia.
    vm_compute. intuition congruence.
  - rewrite enc_exact; auto. rewrite repr_iff.
    pose proof (abs_div_le x y n).
    destruct (Z.eq_dec x (-1152921504606846976)); [|lia]. subst x.
    destruct (Z.eq_dec y 1); [subst y; rewrite Z.quot_1_r; lia|].
    assert (Z.abs (Z.quot (-1152921504606846976) y) <= 576460752303423488); [|lia].
    rewrite <- Z.quot_abs by auto. apply Z.quot_le_upper_bound; lia.
Qed.

Lemma lxor_neg a b : (Z.lxor a b <? 0) = xorb (a <? 0) (b <? 0).
Proof.
  pose proof (Z.lxor_nonneg a b).
  destruct (Z.ltb_spec (Z.lxor a b) 0), (Z.ltb_spec a 0), (Z.ltb_spec b 0); cbn; auto; lia.
Qed.

Lemma floor_mod_ok x y : y <> 0 -> floor_mod x y = x - y * (x / y).
Proof.
  intros Hy. rewrite <- Z.mod_eq by auto. unfold floor_mod, c_rem. rewrite lxor_neg.
  pose proof (Z.quot_rem' x y) as Q.
  pose proof (Z.rem_bound_abs x y Hy) as B.
  symmetry. destruct (Z.eqb_spec (Z.rem x y) 0) as [E|E]; cbn [negb andb].
  - rewrite E. apply Z.rem_divide in E; auto. apply Z.mod_divide; auto.
  - destruct (xorb _ _) eqn:X.
    + symmetry. apply (Z.mod_unique _ _ (Z.quot x y - 1)); [lia | ].
      rewrite Z.mul_sub_distr_l. lia.
    + symmetry. apply (Z.mod_unique _ _ (Z.quot x y)); lia.
Qed.

Lemma rem_bounded x y : y <> 0 -> representable x -> representable (Z.rem x y).
Proof.
  intros H. rewrite !repr_iff. intros.
  pose proof (Z.rem_bound_abs x y H). pose proof (Z.quot_rem' x y).
  pose proof (Z.rem_sign_mul x y H).
  assert (Z.abs (Z.rem x y) <= Z.abs x).
  { rewrite <- Z.rem_abs by auto. rewrite Z.rem_mod_nonneg by lia. apply Z.mod_le; lia. }
  destruct (Z.eq_dec (Z.rem x y) 0); nia.
Qed.

Lemma rem_ok x y : representable x -> representable y ->
  Fast_Rem (Tag_INT_ x) (Tag_INT_ y) = encode (spec2 ORem x y).
Proof.
  intros Hx Hy. unfold Fast_Rem. rewrite !UnTag_Tag by auto. cbv zeta. cbn [spec2].
  destruct (Z.eqb_spec y 0); auto.
  rewrite <- quot_alt by auto.
  replace (x - y * Z.quot x y) with (Z.rem x y)
    by (pose proof (Z.quot_rem' x y); lia).
  rewrite enc_exact; auto using rem_bounded.
Qed.

Lemma mod_bounded x y : y <> 0 -> representable y -> representable (x - y * (x / y)).
Proof.
  intros H. rewrite <- Z.mod_eq by auto. rewrite !repr_iff.
  pose proof (Z.mod_pos_bound x y). pose proof (Z.mod_neg_bound x y). lia.
Qed.

Lemma mod_ok x y : representable x -> representable y ->
  Fast_Mod (Tag_INT_ x) (Tag_INT_ y) = encode (spec2 OMod x y).
Proof.
  intros Hx Hy. unfold Fast_Mod. rewrite !UnTag_Tag by auto. cbv zeta. cbn [spec2].
  destruct (Z.eqb_spec y 0); auto.
  rewrite floor_mod_ok by auto. rewrite enc_exact; auto using mod_bounded.
Qed.

Lemma div_exact x y : y <> 0 -> Z.quot (x - (x - y * (x / y))) y = x / y.
Proof.
  intros. replace (x - (x - y * (x / y))) with (x / y * y) by lia.
  apply Z.quot_mul; auto.
Qed.

Lemma div_bounded x y : y <> 0 -> representable x ->
  ~ (x = -1152921504606846976 /\ y = -1) -> representable (x / y).
Proof.
  intros H. rewrite !repr_iff. intros.
  pose proof (Z.div_mod x y H). pose proof (Z.mod_pos_bound x y).
  pose proof (Z.mod_neg_bound x y). nia.
Qed.

Lemma div_ok x y : representable x -> representable y ->
  Fast_Integer_Div2 (Tag_INT_ x) (Tag_INT_ y) = encode (spec2 ODiv x y).
Proof.
  intros Hx Hy. unfold Fast_Integer_Div2. rewrite !UnTag_Tag by auto. cbv zeta. cbn [spec2].
  destruct (Z.eqb_spec y 0); auto. rewrite INT_LOWEST_val.
  destruct ((x =? -1152921504606846976) && (y =? -1)) eqn:E.
  - apply andb_true_iff in E. rewrite enc_over; auto. rewrite repr_iff.
    replace x with (-1152921504606846976) by lia. replace y with (-1) by lia.
    vm_compute. intuition congruence.
  - rewrite floor_mod_ok by auto. unfold c_div. rewrite div_exact by auto.
    rewrite enc_exact; auto. apply div_bounded; auto. lia.
Qed.

(** *** bitwise *)
Lemma Tag_INT_lor v : Tag_INT_ v = Z.lor (Z.shiftl v 3) 7 mod 2 ^ 64.
Proof.
  rewrite Tag_INT_val. rewrite Z.shiftl_mul_pow2 by lia. change (2^3) with 8.
  rewrite (Z.mul_comm v 8), lor7, P64_val. lia.
Qed.

Lemma land_mod a b : Z.land (a mod 2^64) (b mod 2^64) = Z.land a b mod 2^64.
Proof.
  rewrite <- !Z.land_ones by lia. apply Z.bits_inj'; intros n Hn.
  rewrite !Z.land_spec. destruct (Z.testbit a n), (Z.testbit b n), (Z.testbit (Z.ones 64) n); auto.
Qed.
Lemma lor_mod a b : Z.lor (a mod 2^64) (b mod 2^64) = Z.lor a b mod 2^64.
Proof.
  rewrite <- !Z.land_ones by lia. apply Z.bits_inj'; intros n Hn.
  rewrite !Z.land_spec, !Z.lor_spec, !Z.land_spec.
  destruct (Z.testbit a n), (Z.testbit b n), (Z.testbit (Z.ones 64) n); auto.
Qed.
Lemma lxor_mod a b : Z.lxor (a mod 2^64) (b mod 2^64) = Z.lxor a b mod 2^64.
Proof.
  rewrite <- !Z.land_ones by lia. apply Z.bits_inj'; intros n Hn.
  rewrite !Z.land_spec, !Z.lxor_spec, !Z.land_spec.
  destruct (Z.testbit a n), (Z.testbit b n), (Z.testbit (Z.ones 64) n); auto.
Qed.

Lemma and_raw x y : Z.land (Tag_INT_ x) (Tag_INT_ y) = Tag_INT_ (Z.land x y).
Proof.
  rewrite !Tag_INT_lor, land_mod. f_equal. rewrite Z.shiftl_land.
  apply Z.bits_inj'; intros n Hn. rewrite !Z.land_spec, !Z.lor_spec, !Z.land_spec.
  destruct (Z.testbit (Z.shiftl x 3) n), (Z.testbit (Z.shiftl y 3) n), (Z.testbit 7 n); auto.
Qed.

Lemma or_raw x y : Z.lor (Tag_INT_ x) (Tag_INT_ y) = Tag_INT_ (Z.lor x y).
Proof.
  rewrite !Tag_INT_lor, lor_mod. f_equal. rewrite Z.shiftl_lor.
  apply Z.bits_inj'; intros n Hn. rewrite !Z.lor_spec.
  destruct (Z.testbit (Z.shiftl x 3) n), (Z.testbit (Z.shiftl y 3) n), (Z.testbit 7 n); auto.
Qed.

Lemma xor_raw x y : Z.lor (Z.lxor (Tag_INT_ x) (Tag_INT_ y)) TAG_INT = Tag_INT_ (Z.lxor x y).
Proof.
  rewrite !Tag_INT_lor, lxor_mod. change TAG_INT with (7 mod 2^64).
  rewrite lor_mod. f_equal. rewrite Z.shiftl_lxor.
  apply Z.bits_inj'; intros n Hn. rewrite !Z.lor_spec, !Z.lxor_spec, !Z.lor_spec.
  destruct (Z.testbit (Z.shiftl x 3) n), (Z.testbit (Z.shiftl y 3) n), (Z.testbit 7 n); auto.
Qed.

(** a number fits in k+1 bits two's complement iff all bits from k are equal *)
Lemma fits_iff k x : 0 <= k ->
  (- 2^k <= x < 2^k <-> forall n, k <= n -> Z.testbit x n = (x <? 0)).
Proof.
  intros Hk. split.
  - intros H n Hn. destruct (Z.ltb_spec x 0).
    + destruct (Z.eq_dec x (-1)).
      * subst. apply Z.bits_m1. lia.
      * apply Z.bits_above_log2_neg; auto. apply Z.log2_lt_pow2; [lia|].
        assert (2^k <= 2^n) by (apply Z.pow_le_mono_r; lia). lia.
    + destruct (Z.eq_dec x 0); [subst; apply Z.bits_0|].
      apply Z.bits_above_log2; auto. apply Z.log2_lt_pow2; [lia|].
      assert (2^k <= 2^n) by (apply Z.pow_le_mono_r; lia). lia.
  - intros H.
    assert (E : x / 2^k = if x <? 0 then -1 else 0).
    { apply Z.bits_inj'; intros n Hn. rewrite Z.div_pow2_bits by lia.
      rewrite H by lia. destruct (x <? 0); [now rewrite Z.bits_m1|now rewrite Z.bits_0]. }
    assert (0 < 2^k) by (apply Z.pow_pos_nonneg; lia).
    pose proof (Z.div_mod x (2^k)). pose proof (Z.mod_pos_bound x (2^k)).
    destruct (Z.ltb_spec x 0); rewrite E in *; lia.
Qed.

Lemma repr_fits x : representable x <-> - 2^60 <= x < 2^60.
Proof. unfold representable, min_integer, max_integer. lia. Qed.

Lemma repr_land x y : representable x -> representable y -> representable (Z.land x y).
Proof.
  rewrite !repr_fits, !(fits_iff 60) by lia. intros Hx Hy n Hn.
  rewrite Z.land_spec, Hx, Hy by auto.
  pose proof (Z.land_nonneg x y).
  destruct (Z.ltb_spec x 0), (Z.ltb_spec y 0), (Z.ltb_spec (Z.land x y) 0); auto; lia.
Qed.
Lemma repr_lor x y : representable x -> representable y -> representable (Z.lor x y).
Proof.
  rewrite !repr_fits, !(fits_iff 60) by lia. intros Hx Hy n Hn.
  rewrite Z.lor_spec, Hx, Hy by auto.
  pose proof (Z.lor_nonneg x y).
  destruct (Z.ltb_spec x 0), (Z.ltb_spec y 0), (Z.ltb_spec (Z.lor x y) 0); auto; lia.
Qed.
Lemma repr_lxor x y : representable x -> representable y -> representable (Z.lxor x y).
Proof.
  rewrite !repr_fits, !(fits_iff 60) by lia. intros Hx Hy n Hn.
  rewrite Z.lxor_spec, Hx, Hy by auto. symmetry; apply lxor_neg.
Qed.

Lemma and_ok x y : representable x -> representable y ->
  Fast_And (Tag_INT_ x) (Tag_INT_ y) = encode (spec2 OAnd x y).
Proof.
  intros. unfold Fast_And. rewrite and_raw. cbn [spec2]. rewrite enc_exact; auto using repr_land.
Qed.
Lemma or_ok x y : representable x -> representable y ->
  Fast_Or (Tag_INT_ x) (Tag_INT_ y) = encode (spec2 OOr x y).
Proof.
  intros. unfold Fast_Or. rewrite or_raw. cbn [spec2]. rewrite enc_exact; auto using repr_lor.
Qed.
Lemma xor_ok x y : representable x -> representable y ->
  Fast_Xor (Tag_INT_ x) (Tag_INT_ y) = encode (spec2 OXor x y).
Proof.
  intros. unfold Fast_Xor. rewrite xor_raw. cbn [spec2]. rewrite enc_exact; auto using repr_lxor.
Qed.

(** [bit] of the specification is [Z.testbit] *)
Lemma bit_testbit x i : 0 <= i -> bit x i = Z.testbit x i.
Proof. intros. unfold bit. rewrite Z.testbit_odd, Z.shiftr_div_pow2; auto. Qed.

(** *** power *)
Definition in64 z := -9223372036854775808 <= z < 9223372036854775808.

Lemma pow_grows a b c : 2 <= Z.abs a -> 0 <= b -> Z.abs c <> 0 ->
  Z.abs c <= Z.abs (c * a ^ b).
Proof.
  intros Ha Hb Hc. rewrite Z.abs_mul.
  assert (1 <= Z.abs (a ^ b)).
  { assert (a ^ b <> 0) by (apply Z.pow_nonzero; lia). lia. }
  nia.
Qed.

Lemma pow_split a b : 0 < b -> a ^ b = (if Z.odd b then a else 1) * (a * a) ^ (b / 2).
Proof.
  intros Hb. rewrite Z.pow_mul_l, <- Z.pow_add_r by lia.
  pose proof (Z.div_mod b 2 ltac:(lia)) as E. rewrite Zmod_odd in E.
  destruct (Z.odd b).
  - rewrite <- Z.pow_succ_r by lia. f_equal. lia.
  - rewrite Z.mul_1_l. f_equal. lia.
Qed.

Lemma land1 b : (Z.land b 1 =? 1) = Z.odd b.
Proof.
  change 1 with (Z.ones 1) at 1. rewrite Z.land_ones by lia. change (2^1) with 2.
  rewrite Zmod_odd. destruct (Z.odd b); reflexivity.
Qed.

Lemma pow_loop_ok fuel : forall r a b,
  2 <= Z.abs a -> r <> 0 -> in64 r -> 0 < b < 2 ^ Z.of_nat fuel ->
  exists s z, pow_loop fuel r a b = Some (s, z) /\
    ((s = 0 /\ z = r * a ^ b /\ in64 z) \/ (s = 1 /\ ~ in64 (r * a ^ b) \/
     (s = 1 /\ 9223372036854775808 <= Z.abs (r * a ^ b)))).
Proof.
  induction fuel as [|fuel IH]; intros r a b Ha Hr Hin Hb; [cbn in Hb; lia|].
  assert (Hf : 2 ^ Z.of_nat (S fuel) = 2 * 2 ^ Z.of_nat fuel).
  { rewrite Nat2Z.inj_succ, Z.pow_succ_r; lia. }
  rewrite Hf in Hb. clear Hf.
  cbn [pow_loop]. rewrite land1. rewrite Z.shiftr_div_pow2 by lia. change (2^1) with 2.
  assert (Hpow : r * a ^ b = (r * (if Z.odd b then a else 1)) * (a * a) ^ (b/2)).
  { rewrite (pow_split a b) by lia. ring. }
  set (r' := r * (if Z.odd b then a else 1)) in *.
  assert (Hr' : r' <> 0) by (unfold r'; destruct (Z.odd b); nia).
  assert (Haa : 4 <= Z.abs (a * a)) by (rewrite Z.abs_mul; nia).
  pose proof (pow_grows (a*a) (b/2) r' ltac:(lia) ltac:(lia) ltac:(lia)) as G.
  assert (Hstep : exists o : bool, (if Z.odd b then mul_overflow r a else (false, r)) = (o, if o then s64 r' else r')
     /\ (if o then ~ in64 r' else in64 r')).
  { subst r'; destruct (Z.odd b).
    - pose proof (mul_overflow_spec r a) as S. unfold mul_overflow in *.
      match type of S with if ?c then _ else _ => exists c; destruct c end;
        unfold in64.
      + split; [reflexivity|lia].
      + destruct S as [S1 S2]. rewrite S1. split; auto.
    - exists false. rewrite Z.mul_1_r. auto. }
  destruct Hstep as (o & -> & Ho). destruct o.
  - exists 1, (s64 r'). split; auto. right. rewrite Hpow.
    unfold in64 in *. destruct (Z.eq_dec (Z.abs (r' * (a*a)^(b/2))) 0); [|lia].
    exfalso; lia.
  - destruct (Z.eqb_spec (b / 2) 0) as [E|E].
    + exists 0, r'. split; auto. left. rewrite Hpow, E, Z.pow_0_r, Z.mul_1_r. auto.
    + pose proof (mul_overflow_spec a a) as S. destruct (mul_overflow a a) as [[] q].
      * exists 1, r'. split; auto. right. right. split; auto. rewrite Hpow.
        replace (b/2) with (Z.succ (b/2 - 1)) by lia.
        rewrite Z.pow_succ_r by lia. rewrite Z.mul_assoc.
        pose proof (pow_grows (a*a) (b/2-1) (r' * (a*a)) ltac:(lia) ltac:(lia) ltac:(clear - Hr' Ha; nia)).
        assert (Z.abs (a*a) <= Z.abs (r' * (a*a))).
        { rewrite (Z.abs_mul r' (a * a)). clear - Hr' Haa.
          set (u := Z.abs (a * a)) in *. nia. }
        assert (9223372036854775808 <= Z.abs (a * a)) by (clear - S; lia).
        etransitivity; [eassumption|]. etransitivity; eassumption.
      * destruct S as [-> S].
        destruct (IH r' (a*a) (b/2) ltac:(lia) Hr' Ho ltac:(lia)) as (s & z & Hs & Hc).
        exists s, z. split; auto. rewrite Hpow. exact Hc.
Qed.

Lemma pow_m1 y : (-1) ^ y = if y <? 0 then 0 else if Z.even y then 1 else -1.
Proof.
  destruct (Z.ltb_spec y 0); [apply Z.pow_neg_r; auto|].
  destruct (Z.even y) eqn:E.
  - apply Z.even_spec in E as [k ->]. rewrite Z.pow_mul_r by lia. apply Z.pow_1_l. lia.
  - assert (O : Z.odd y = true) by (rewrite <- Z.negb_even, E; auto).
    apply Z.odd_spec in O as [k ->]. rewrite Z.pow_add_r, Z.pow_mul_r by lia.
    change ((-1)^2) with 1. rewrite Z.pow_1_l by lia. reflexivity.
Qed.

Lemma pow_ok x y : representable x -> representable y ->
  Fast_IPow (Tag_INT_ x) (Tag_INT_ y) = encode (spec2 OPow x y).
Proof.
  intros Hx Hy. unfold Fast_IPow. rewrite !UnTag_Tag by auto. cbn [spec2].
  unfold pow_overflow. cbv zeta.
  assert (R : forall z, -1152921504606846976 <= z <= 1152921504606846975 ->
     (if negb (0 =? 0) || TEST_INT_OVERFLOW z then Err_Overflow else Ok (Tag_INT_ z)) = Ok (Tag_INT_ z)).
  { intros z Hz. rewrite TEST_iff. apply repr_iff, reprb_iff in Hz. rewrite Hz. reflexivity. }
  destruct (Z.eqb_spec x 1) as [->|N1].
  { change (0 =? 2) with false; change (0 =? 3) with false; cbv iota beta.
    rewrite R by lia. destruct (Z.leb_spec 0 y); auto.
    rewrite Z.pow_1_l by auto. now rewrite enc_exact by (apply repr_iff; lia). }
  destruct (Z.eqb_spec x (-1)) as [->|N2].
  { assert (B : 1 - Z.shiftl (Z.land y 1) 1 = if Z.even y then 1 else -1).
    { change 1 with (Z.ones 1) at 2. rewrite Z.land_ones by lia. change (2^1) with 2.
      rewrite Zmod_odd, <- Z.negb_even. destruct (Z.even y); reflexivity. }
    rewrite B. change (0 =? 2) with false; change (0 =? 3) with false; cbv iota beta.
    rewrite R by (destruct (Z.even y); lia).
    destruct (Z.leb_spec 0 y).
    - rewrite pow_m1. destruct (Z.ltb_spec y 0); [lia|].
      rewrite enc_exact; auto. rewrite repr_iff; destruct (Z.even y); lia.
    - change (-1 =? 0) with false. change (-1 =? 1) with false. change (-1 =? -1) with true.
      cbv iota. reflexivity. }
  destruct (Z.eqb_spec x 0) as [->|N0].
  { destruct (Z.leb_spec 0 y); [|reflexivity].
    change (0 =? 2) with false; change (0 =? 3) with false; cbv iota beta.
    destruct (Z.eqb_spec y 0).
    - subst y. reflexivity.
    - rewrite R by lia. rewrite Z.pow_0_l by lia. reflexivity. }
  destruct (Z.ltb_spec y 0).
  { change (3 =? 2) with false; change (3 =? 3) with true; cbv iota beta.
    destruct (Z.leb_spec 0 y); [lia|]. reflexivity. }
  destruct (Z.leb_spec 0 y); [|lia].
  destruct (Z.eq_dec y 0) as [->|Ny].
  { rewrite Z.pow_0_r. reflexivity. }
  destruct (pow_loop_ok 64 1 x y) as (s & z & -> & C); [lia|lia|unfold in64; lia| |].
  { rp. change (2 ^ Z.of_nat 64) with 18446744073709551616. lia. }
  rewrite Z.mul_1_l in C.
  destruct C as [(-> & -> & I)|[(-> & I)|(-> & I)]].
  - change (0 =? 2) with false; change (0 =? 3) with false; cbv iota beta.
    rewrite TEST_iff. unfold exactly. destruct (representableb (x^y)); reflexivity.
  - rewrite enc_over; [reflexivity|]. rewrite repr_iff. unfold in64 in I. lia.
  - rewrite enc_over; [reflexivity|]. rewrite repr_iff. lia.
Qed.

Lemma Tag_not_FLT x : Tag_Is_FLT (Tag_INT_ x) = false.
Proof.
  pose proof (Tag_Is_INT_Tag x) as H. unfold Tag_Is_INT, Tag_Is_FLT, TAG_INT, TAG_FLT in *. lia.
Qed.

Lemma min_ok x y : representable x -> representable y ->
  Fct_Min (Tag_INT_ x) (Tag_INT_ y) = encode (spec2 OMin x y).
Proof.
  intros Hx Hy. unfold Fct_Min. rewrite !UnTag_Tag by auto. cbn [spec2]. cbv zeta.
  rewrite Tag_not_FLT. rewrite enc_exact by (destruct (x <? y); auto).
  f_equal. destruct (Z.ltb_spec x y), (Z.ltb_spec y x); auto.
Qed.
Lemma max_ok x y : representable x -> representable y ->
  Fct_Max (Tag_INT_ x) (Tag_INT_ y) = encode (spec2 OMax x y).
Proof.
  intros Hx Hy. unfold Fct_Max. rewrite !UnTag_Tag by auto. cbn [spec2]. cbv zeta.
  rewrite Tag_not_FLT. rewrite enc_exact by (destruct (x <? y); auto).
  f_equal. destruct (Z.ltb_spec x y), (Z.ltb_spec y x); auto; try lia.
  replace x with y by lia; auto.
Qed.

(** *** gcd *)
Lemma gcd_loop_ok fuel : forall x y, 0 <= y <= x -> x * y < 2 ^ Z.of_nat fuel ->
  gcd_loop (S fuel) x y = Some (Z.gcd x y).
Proof.
  induction fuel as [|fuel IH]; intros x y H L.
  - cbn in L. assert (x * y = 0) by nia. assert (y = 0) by nia. subst.
    cbn [gcd_loop]. rewrite Z.gcd_0_r, Z.abs_eq by lia. reflexivity.
  - remember (S fuel) as f. cbn [gcd_loop]. destruct (Z.eqb_spec y 0).
    + subst. rewrite Z.gcd_0_r, Z.abs_eq by lia. reflexivity.
    + subst f. unfold c_rem. rewrite Z.rem_mod_nonneg by lia.
      pose proof (Z.mod_pos_bound x y). rewrite IH.
      * f_equal. rewrite Z.gcd_comm. rewrite Z.gcd_mod by auto. apply Z.gcd_comm.
      * lia.
      * rewrite Nat2Z.inj_succ, Z.pow_succ_r in L by lia.
        pose proof (Z.div_mod x y). assert (1 <= x / y) by (apply Z.div_le_lower_bound; lia).
        nia.
Qed.

Lemma gcd_loop_ok2 n x y : 0 <= x -> 0 <= y -> x * y < 2 ^ Z.of_nat n ->
  gcd_loop (S (S n)) x y = Some (Z.gcd x y).
Proof.
  intros Hx Hy L. destruct (Z_le_gt_dec y x).
  - apply gcd_loop_ok; [lia|]. rewrite Nat2Z.inj_succ, Z.pow_succ_r; lia.
  - remember (S n) as m. cbn [gcd_loop].
    destruct (Z.eqb_spec y 0); [lia|]. unfold c_rem. rewrite Z.rem_small by lia.
    subst m. rewrite Z.gcd_comm. apply gcd_loop_ok; [lia|]. nia.
Qed.

Lemma gcd_loop_ok' x y : 0 <= x <= 1152921504606846976 -> 0 <= y <= 1152921504606846976 ->
  gcd_loop 130 x y = Some (Z.gcd x y).
Proof.
  intros Hx Hy. refine (gcd_loop_ok2 128 x y _ _ _); try lia.
  change (2 ^ Z.of_nat 128) with 340282366920938463463374607431768211456. nia.
Qed.

Lemma gcd_raw x y : representable x -> representable y ->
  Fast_GCD (Tag_INT_ x) (Tag_INT_ y) =
  if ((x =? min_integer) && (y =? 0)) || ((x =? 0) && (y =? min_integer))
  then Err_Overflow else Ok (Tag_INT_ (Z.gcd x y)).
Proof.
  intros Hx Hy. unfold Fast_GCD. rewrite !UnTag_Tag by auto.
  change INT_LOWEST_VALUE with min_integer. cbv zeta.
  match goal with |- (if ?c then _ else _) = _ => destruct c end; auto. rp.
  rewrite gcd_loop_ok' by (destruct (x <? 0) eqn:?, (y <? 0) eqn:?; lia).
  do 2 f_equal.
  replace (if x <? 0 then - x else x) with (Z.abs x) by (destruct (x <? 0) eqn:?; lia).
  replace (if y <? 0 then - y else y) with (Z.abs y) by (destruct (y <? 0) eqn:?; lia).
  now rewrite Z.gcd_abs_l, Z.gcd_abs_r.
Qed.

Lemma gcd_ok x y : representable x -> representable y ->
  ~ (x = min_integer /\ y = min_integer) ->
  Fast_GCD (Tag_INT_ x) (Tag_INT_ y) = encode (spec2 OGcd x y).
Proof.
  intros Hx Hy N. rewrite gcd_raw by auto. cbn [spec2].
  change min_integer with (-1152921504606846976) in *. rp.
  match goal with |- (if ?c then _ else _) = _ => destruct c eqn:E end.
  - rewrite enc_over; auto.
    assert (Z.gcd x y = 1152921504606846976).
    { apply orb_true_iff in E as [E|E]; apply andb_true_iff in E as [E1 E2];
        apply Z.eqb_eq in E1, E2; subst; reflexivity. }
    rewrite repr_iff; lia.
  - rewrite enc_exact; auto. rewrite repr_iff.
    pose proof (Z.gcd_nonneg x y).
    destruct (Z.eq_dec x 0); [subst; rewrite Z.gcd_0_l; lia|].
    destruct (Z.eq_dec y 0); [subst; rewrite Z.gcd_0_r; lia|].
    assert (Z.gcd x y <= Z.abs x).
    { rewrite <- Z.gcd_abs_l. apply Z.divide_pos_le; [lia|]. apply Z.gcd_divide_l. }
    assert (Z.gcd x y <= Z.abs y).
    { rewrite <- Z.gcd_abs_r. apply Z.divide_pos_le; [lia|]. apply Z.gcd_divide_r. }
    lia.
Qed.

(** *** shifts *)
Lemma shr_small x y : representable x -> 60 <= y -> x / 2 ^ y = if x <? 0 then -1 else 0.
Proof.
  intros Hx Hy. rewrite repr_fits in Hx.
  assert (2^60 <= 2^y) by (apply Z.pow_le_mono_r; lia).
  destruct (Z.ltb_spec x 0).
  - symmetry. apply (Z.div_unique_pos _ _ _ (x + 2^y)); lia.
  - apply Z.div_small; lia.
Qed.

Lemma Shr_pos_ok x y : representable x -> 0 <= y ->
  Shr_pos x y = encode (exactly (x / 2 ^ y)).
Proof.
  intros Hx Hy. unfold Shr_pos, WORD_SIZE.
  assert (R : representable (x / 2 ^ y)).
  { assert (0 < 2^y) by (apply Z.pow_pos_nonneg; lia).
    rewrite repr_fits in *.
    pose proof (Z.div_mod x (2^y)). pose proof (Z.mod_pos_bound x (2^y)). nia. }
  rewrite enc_exact by auto. do 2 f_equal.
  destruct (Z.leb_spec 64 y).
  - rewrite shr_small by (auto; lia). destruct (Z.leb_spec 0 x), (Z.ltb_spec x 0); auto; lia.
  - apply Z.shiftr_div_pow2; lia.
Qed.

(** exact left shift, when x is non-negative or x*2^y is representable *)
Lemma Shl_pos_ok x y : representable x -> 0 <= y ->
  0 <= x \/ representable (x * 2 ^ y) \/ 61 <= y ->
  Shl_pos x y = encode (exactly (x * 2 ^ y)).
Proof.
  intros Hx Hy C. unfold Shl_pos, VALUE_SIZE.
  assert (P : 0 < 2^y) by (apply Z.pow_pos_nonneg; lia).
  destruct (Z.leb_spec 61 y).
  - assert (2^61 <= 2^y) by (apply Z.pow_le_mono_r; lia).
    change (2^61) with 2305843009213693952 in *.
    destruct (Z.eqb_spec x 0); cbn [negb].
    + subst. rewrite Z.mul_0_l. reflexivity.
    + rewrite enc_over; auto. rewrite repr_iff. nia.
  - rewrite INT_GREATEST_val, Z.shiftr_div_pow2 by lia.
    assert (E : 2^60 = 2^y * 2^(60-y)) by (rewrite <- Z.pow_add_r by lia; f_equal; lia) || idtac.
    destruct (Z.ltb_spec (1152921504606846975 / 2 ^ y) x).
    + assert (1152921504606846975 < x * 2^y).
      { apply Z.div_lt_upper_bound in H0 || idtac.
        pose proof (Z.div_mod 1152921504606846975 (2^y)).
        pose proof (Z.mod_pos_bound 1152921504606846975 (2^y)). nia. }
      rewrite enc_over; auto. rewrite repr_iff. lia.
    + assert (x * 2 ^ y <= 1152921504606846975).
      { pose proof (Z.div_mod 1152921504606846975 (2^y)).
        pose proof (Z.mod_pos_bound 1152921504606846975 (2^y)). nia. }
      assert (R : representable (x * 2 ^ y)) by (destruct C as [C|[C|C]]; auto; [rewrite repr_iff; nia|lia]).
      rewrite enc_exact by auto. rewrite Z.shiftl_mul_pow2 by lia.
      rewrite repr_iff in R. rewrite s64_id by lia. reflexivity.
Qed.

Lemma neg_repr y : representable y -> y < 0 -> y <> min_integer -> representable (- y).
Proof. change min_integer with (-1152921504606846976). rewrite !repr_iff. lia. Qed.

Lemma Shl_ok x y : representable x -> representable y ->
  0 <= x \/ (0 <= y /\ representable (x * 2 ^ y)) \/ 61 <= y \/ (y < 0 /\ y <> min_integer) ->
  Fast_Shl (Tag_INT_ x) (Tag_INT_ y) = encode (spec2 OShl x y).
Proof.
  intros Hx Hy C. unfold Fast_Shl. rewrite !UnTag_Tag by auto. cbv zeta. cbn [spec2].
  unfold shift. change INT_LOWEST_VALUE with min_integer.
  destruct (Z.ltb_spec y 0), (Z.leb_spec 0 y); try lia.
  - destruct (Z.eqb_spec y min_integer).
    + rewrite shr_small; auto.
      * destruct (Z.ltb_spec x 0); [|reflexivity]. lia.
      * subst. vm_compute. congruence.
    + rewrite UnTag_Tag by (apply neg_repr; auto). apply Shr_pos_ok; auto; lia.
  - apply Shl_pos_ok; auto. destruct C as [C|[[_ C]|[C|C]]]; auto. lia.
Qed.

Lemma Shr_ok x y : representable x -> representable y ->
  0 <= x \/ 0 <= y \/ representable (x * 2 ^ - y) \/ y <= -61 ->
  Fast_Shr (Tag_INT_ x) (Tag_INT_ y) = encode (spec2 OShr x y).
Proof.
  intros Hx Hy C. unfold Fast_Shr. rewrite !UnTag_Tag by auto. cbv zeta. cbn [spec2].
  unfold shift. change INT_LOWEST_VALUE with min_integer. rewrite Z.opp_involutive.
  destruct (Z.ltb_spec y 0).
  - destruct (Z.leb_spec 0 (-y)); [|lia].
    destruct (Z.eqb_spec y min_integer).
    + destruct (Z.eqb_spec x 0).
      * subst x. rewrite Z.mul_0_l. reflexivity.
      * rewrite enc_over; auto. rewrite repr_iff.
        assert (2^61 <= 2^(-y)).
        { apply Z.pow_le_mono_r; [lia|]. subst y. vm_compute; congruence. }
        change (2^61) with 2305843009213693952 in *. nia.
    + rewrite UnTag_Tag by (apply neg_repr; auto). apply Shl_pos_ok; auto.
      destruct C as [C|[C|[C|C]]]; [left; auto|lia|right; left; auto|right; right; lia].
  - rewrite Shr_pos_ok by auto. destruct (Z.leb_spec 0 (-y)); auto.
    replace y with 0 by lia. cbn [Z.opp]. now rewrite Z.pow_0_r, Z.div_1_r, Z.mul_1_r.
Qed.

Lemma spec1_ok o x : answer_ok (spec1 o x).
Proof. destruct o; apply exactly_ok. Qed.

Lemma spec2_ok o x y : representable x -> answer_ok (spec2 o x y).
Proof.
  intros Hx. destruct o; cbn [spec2];
    repeat match goal with |- context [if ?c then _ else _] => destruct c end;
    try apply exactly_ok; cbn [answer_ok]; auto; rewrite repr_iff in *; lia.
Qed.

Lemma fct2_ok o x y : exact_op o = true -> representable x -> representable y ->
  fct2 o (Tag_INT_ x) (Tag_INT_ y) = encode (spec2 o x y).
Proof.
  destruct o; intros E Hx Hy; try discriminate E; cbn [fct2].
  - apply add_ok; auto.
  - apply sub_ok; auto.
  - apply mul_ok; auto.
  - apply idiv_ok; auto.
  - apply div_ok; auto.
  - apply rem_ok; auto.
  - apply mod_ok; auto.
  - apply and_ok; auto.
  - apply or_ok; auto.
  - apply xor_ok; auto.
  - apply pow_ok; auto.
  - apply min_ok; auto.
  - apply max_ok; auto.
Qed.

Lemma eval_ok e : literals_ok e -> exact_ops e = true ->
  answer_ok (spec_eval e) /\ Load_Math_Expression e = encode (spec_eval e).
Proof.
  induction e as [x|o e IH|o e1 IH1 e2 IH2]; cbn [literals_ok exact_ops spec_eval Load_Math_Expression].
  - intros; split; auto.
  - intros L X. destruct (IH L X) as [A ->]. destruct (spec_eval e); cbn in *; auto.
    split; [apply spec1_ok|]. apply fct1_ok; auto.
  - intros [L1 L2] X. apply andb_true_iff in X as [X X2]. apply andb_true_iff in X as [Xo X1].
    destruct (IH1 L1 X1) as [A1 ->]. destruct (spec_eval e1); cbn in *; auto.
    destruct (IH2 L2 X2) as [A2 ->]. destruct (spec_eval e2); cbn in *; auto.
    split; [apply spec2_ok; auto|]. apply fct2_ok; auto.
Qed.

(** comparisons *)
Lemma eq_iff x y : representable x -> representable y ->
  Fast_Eq (Tag_INT_ x) (Tag_INT_ y) = (x =? y).
Proof.
  intros Hx Hy. unfold Fast_Eq. destruct (Z.eqb_spec x y); [subst; apply Z.eqb_refl|].
  apply Z.eqb_neq. intros E. apply n. apply Tag_INT_inj; auto.
Qed.

Definition map_ok (r : res) : option Z :=
  match r with Ok w => Some (UnTag_INT_ w) | _ => None end.

Lemma comparisons x y : representable x -> representable y ->
  let a := Tag_INT_ x in let b := Tag_INT_ y in
  Fast_Eq a b = (x =? y) /\ Fast_Neq a b = negb (x =? y) /\
  Fast_Lt a b = (x <? y) /\ Fast_Lte a b = (x <=? y) /\
  Fast_Gt a b = (y <? x) /\ Fast_Gte a b = (y <=? x).
Proof.
  intros Hx Hy a b. unfold Fast_Neq, Fast_Lt, Fast_Lte, Fast_Gt, Fast_Gte.
  fold (Fast_Eq a b). unfold a, b. rewrite eq_iff, !UnTag_Tag by auto. auto 10.
Qed.

Lemma both_int x y : 0 <= x < 2 ^ 64 -> 0 <= y < 2 ^ 64 ->
  X_and_Y_are_INT x y = Tag_Is_INT x && Tag_Is_INT y.
Proof.
  intros Hx Hy. unfold X_and_Y_are_INT, Tag_Is_INT, Tag_Mask_Of, TAG_INT, u64.
  assert (L : Z.land x y mod W64 = Z.land x y).
  { change W64 with (2^64). rewrite <- land_mod.
    rewrite (Z.mod_small x), (Z.mod_small y); auto. }
  rewrite L. change W64 with (2^64). rewrite (Z.mod_small x), (Z.mod_small y) by auto.
  assert (E : forall z, (Z.land z TAG_MASK =? 7) = Z.testbit z 0 && Z.testbit z 1 && Z.testbit z 2).
  { intros z. change TAG_MASK with (Z.ones 3). rewrite Z.land_ones by lia. change (2^3) with 8.
    rewrite !Z.testbit_odd, !Z.shiftr_div_pow2 by lia.
    change (2^0) with 1; change (2^1) with 2; change (2^2) with 4. rewrite Z.div_1_r.
    pose proof (Zmod_odd z). pose proof (Zmod_odd (z/2)). pose proof (Zmod_odd (z/4)).
    destruct (Z.odd z), (Z.odd (z/2)), (Z.odd (z/4)); cbn [andb]; lia. }
  rewrite !E, !Z.land_spec.
  destruct (Z.testbit x 0), (Z.testbit x 1), (Z.testbit x 2),
    (Z.testbit y 0), (Z.testbit y 1), (Z.testbit y 2); reflexivity.
Qed.

Lemma zero_divisor x o : representable x ->
  o = OIDiv \/ o = ORem \/ o = ODiv \/ o = OMod ->
  fct2 o (Tag_INT_ x) (Tag_INT_ 0) = Err_Zero_Div.
Proof.
  intros Hx O. assert (representable 0) by (rewrite repr_iff; lia).
  rewrite fct2_ok; auto; destruct O as [->|[->|[->| ->]]]; reflexivity.
Qed.

Lemma division_laws x y : representable x -> representable y -> y <> 0 ->
  ~ (x = min_integer /\ y = -1) ->
  exists q r d m,
    fct2 OIDiv (Tag_INT_ x) (Tag_INT_ y) = Ok (Tag_INT_ q) /\
    fct2 ORem (Tag_INT_ x) (Tag_INT_ y) = Ok (Tag_INT_ r) /\
    fct2 ODiv (Tag_INT_ x) (Tag_INT_ y) = Ok (Tag_INT_ d) /\
    fct2 OMod (Tag_INT_ x) (Tag_INT_ y) = Ok (Tag_INT_ m) /\
    x = y * q + r /\ Z.abs r < Z.abs y /\ (r = 0 \/ Z.sgn r = Z.sgn x) /\
    x = y * d + m /\ Z.abs m < Z.abs y /\ (m = 0 \/ Z.sgn m = Z.sgn y).
Proof.
  intros Hx Hy Ny Nm. change min_integer with (-1152921504606846976) in Nm.
  exists (Z.quot x y), (Z.rem x y), (x / y), (x mod y).
  assert (Eq : fct2 OIDiv (Tag_INT_ x) (Tag_INT_ y) = Ok (Tag_INT_ (Z.quot x y))).
  { cbn [fct2]. unfold Fast_Integer_Div. rewrite !UnTag_Tag, INT_LOWEST_val by auto. cbv zeta.
    destruct (Z.eqb_spec y 0); [lia|]. destruct (Z.eqb_spec x (-1152921504606846976)); auto.
    destruct (Z.eqb_spec y (-1)); auto. exfalso; auto. }
  assert (Ed : fct2 ODiv (Tag_INT_ x) (Tag_INT_ y) = Ok (Tag_INT_ (x / y))).
  { rewrite fct2_ok by auto. cbn [spec2]. destruct (Z.eqb_spec y 0); [lia|].
    apply enc_exact, div_bounded; auto. }
  assert (Er : fct2 ORem (Tag_INT_ x) (Tag_INT_ y) = Ok (Tag_INT_ (Z.rem x y))).
  { cbn [fct2]. unfold Fast_Rem. rewrite !UnTag_Tag by auto. cbv zeta.
    destruct (Z.eqb_spec y 0); [lia|]. reflexivity. }
  assert (Em : fct2 OMod (Tag_INT_ x) (Tag_INT_ y) = Ok (Tag_INT_ (x mod y))).
  { cbn [fct2]. unfold Fast_Mod. rewrite !UnTag_Tag by auto. cbv zeta.
    destruct (Z.eqb_spec y 0); [lia|]. rewrite floor_mod_ok, <- Z.mod_eq by auto. reflexivity. }
  repeat split; auto.
  - apply Z.quot_rem'.
  - apply Z.rem_bound_abs; auto.
  - destruct (Z.eq_dec (Z.rem x y) 0); auto. right. apply Z.rem_sign_nz; auto.
  - apply Z.div_mod; auto.
  - pose proof (Z.mod_pos_bound x y). pose proof (Z.mod_neg_bound x y). lia.
  - pose proof (Z.mod_pos_bound x y). pose proof (Z.mod_neg_bound x y). lia.
Qed.

Lemma bitwise_laws x y : representable x -> representable y ->
  (exists z, Fast_And (Tag_INT_ x) (Tag_INT_ y) = Ok (Tag_INT_ z) /\ representable z /\
     forall i, 0 <= i -> bit z i = bit x i && bit y i) /\
  (exists z, Fast_Or (Tag_INT_ x) (Tag_INT_ y) = Ok (Tag_INT_ z) /\ representable z /\
     forall i, 0 <= i -> bit z i = bit x i || bit y i) /\
  (exists z, Fast_Xor (Tag_INT_ x) (Tag_INT_ y) = Ok (Tag_INT_ z) /\ representable z /\
     forall i, 0 <= i -> bit z i = xorb (bit x i) (bit y i)) /\
  (exists z, Fast_Not (Tag_INT_ x) = Ok (Tag_INT_ z) /\ representable z /\
     forall i, 0 <= i -> bit z i = negb (bit x i)).
Proof.
  intros Hx Hy. split; [|split; [|split]].
  - exists (Z.land x y). unfold Fast_And. rewrite and_raw.
    split; auto. split; [auto using repr_land|]. intros. rewrite !bit_testbit by auto. apply Z.land_spec.
  - exists (Z.lor x y). unfold Fast_Or. rewrite or_raw.
    split; auto. split; [auto using repr_lor|]. intros. rewrite !bit_testbit by auto. apply Z.lor_spec.
  - exists (Z.lxor x y). unfold Fast_Xor. rewrite xor_raw.
    split; auto. split; [auto using repr_lxor|]. intros. rewrite !bit_testbit by auto. apply Z.lxor_spec.
  - exists (Z.lnot x). unfold Fast_Not. rewrite UnTag_Tag by auto.
    split; auto. split; [unfold Z.lnot; rewrite repr_iff in *; lia|].
    intros. rewrite !bit_testbit by auto. apply Z.lnot_spec; auto.
Qed.

Lemma gcd_laws x y : representable x -> representable y ->
  ~ (x = min_integer /\ y = min_integer) ->
  (exists g, Fast_GCD (Tag_INT_ x) (Tag_INT_ y) = Ok (Tag_INT_ g) /\ representable g /\
     0 <= g /\ (g | x) /\ (g | y) /\ forall d, (d | x) -> (d | y) -> (d | g)) \/
  (Fast_GCD (Tag_INT_ x) (Tag_INT_ y) = Err_Overflow /\
     forall g, 0 <= g -> (g | x) -> (g | y) -> (forall d, (d | x) -> (d | y) -> (d | g)) ->
       ~ representable g).
Proof.
  intros Hx Hy N. rewrite gcd_ok by auto. cbn [spec2]. unfold exactly.
  destruct (representableb (Z.gcd x y)) eqn:E.
  - left. exists (Z.gcd x y). apply reprb_iff in E. cbn [encode].
    repeat split; auto using Z.gcd_nonneg, Z.gcd_divide_l, Z.gcd_divide_r, Z.gcd_greatest;
      apply E.
  - right. split; auto. intros g G0 G1 G2 G3 R.
    rewrite (Z.gcd_unique x y g) in E by auto. apply reprb_iff in R. congruence.
Qed.

Lemma shl_wrap : representable (-1152921504606846976) /\ representable 1 /\
    Fast_Shl (Tag_INT_ (-1152921504606846976)) (Tag_INT_ 1) = Ok (Tag_INT_ 0) /\
    representable 0 /\ 0 <> shift (-1152921504606846976) 1.
Proof. rewrite !repr_iff. repeat split; try lia; vm_compute; try reflexivity; congruence. Qed.

Lemma shl_min_count : representable (-5) /\ representable min_integer /\ min_integer < 0 /\
    Fast_Shl (Tag_INT_ (-5)) (Tag_INT_ min_integer) = Ok (Tag_INT_ 0) /\
    0 <> shift (-5) min_integer.
Proof.
  split; [apply repr_iff; lia|]. split; [apply repr_iff; vm_compute; intuition congruence|].
  split; [reflexivity|]. split; [vm_compute; reflexivity|].
  unfold shift. change (0 <=? min_integer) with false. cbv iota.
  rewrite shr_small; [discriminate|apply repr_iff; lia|vm_compute; congruence].
Qed.

Lemma shr_wrap : representable (-3) /\ representable (-60) /\
    Fast_Shr (Tag_INT_ (-3)) (Tag_INT_ (-60)) = Ok (Tag_INT_ (-1152921504606846976)) /\
    representable (-1152921504606846976) /\ -1152921504606846976 <> shift (-3) (- -60).
Proof. rewrite !repr_iff. repeat split; try lia; vm_compute; try reflexivity; congruence. Qed.

Lemma shl_negative_unchecked x y : representable x -> x < 0 -> 0 <= y < 61 ->
  exists w, Fast_Shl (Tag_INT_ x) (Tag_INT_ y) = Ok w.
Proof.
  intros Hx Nx Hy. assert (representable y) by (rewrite repr_iff; lia).
  unfold Fast_Shl. rewrite !UnTag_Tag by auto. cbv zeta.
  destruct (Z.ltb_spec y 0); [lia|]. unfold Shl_pos, VALUE_SIZE.
  destruct (Z.leb_spec 61 y); [lia|].
  assert (0 <= Z.shiftr INT_GREATEST_VALUE y) by (apply Z.shiftr_nonneg; vm_compute; congruence).
  destruct (Z.ltb_spec (Z.shiftr INT_GREATEST_VALUE y) x); [lia|]. eauto.
Qed.

Lemma gcd_negative : representable min_integer /\ representable min_integer /\
    exists g, Fast_GCD (Tag_INT_ min_integer) (Tag_INT_ min_integer) = Ok (Tag_INT_ g) /\
      representable g /\ g < 0.
Proof.
  rewrite !repr_iff. split; [|split]; [vm_compute; intuition congruence..|].
  exists min_integer. rewrite repr_iff. repeat split; try (vm_compute; congruence).
Qed.

Lemma msb_culprit : representable (-8) /\ -8 < 0 /\
    exists w, Fast_MSB (Tag_INT_ (-8)) = Err_Domain w /\ w <> Tag_INT_ (-8) /\
      Tag_Mask_Of w = TAG_REF /\ UnTag_Address w = 2 ^ 64 - 8.
Proof.
  rewrite repr_iff. split; [lia|]. split; [lia|]. exists (2^64 - 8).
  repeat split; vm_compute; congruence.
Qed.
