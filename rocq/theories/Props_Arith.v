(** Theorems about integer arithmetic (C01-C06). *)
Require Import ZArith Bool Lia.
Require Import Verif.Word_Model Verif.Arith_Model Verif.Arith_Spec Verif.Arith_Proofs.
Open Scope Z_scope.

(** C01: an integer of the range survives tagging, carries the integer tag, and
    conversely every word with the integer tag is the tagging of exactly one
    representable integer. *)
Theorem C01_int_round_trip :
  forall x, representable x ->
  0 <= Tag_INT_ x < 2 ^ 64 /\ Tag_Is_INT (Tag_INT_ x) = true /\ UnTag_INT_ (Tag_INT_ x) = x.
Proof.
  exact (fun x H => conj (Tag_INT_range x) (conj (Tag_Is_INT_Tag x) (UnTag_Tag x H))).
Qed.

Theorem C01_int_words :
  forall w, 0 <= w < 2 ^ 64 -> Tag_Is_INT w = true ->
  representable (UnTag_INT_ w) /\ Tag_INT_ (UnTag_INT_ w) = w.
Proof. exact Tag_UnTag. Qed.

Theorem C01_int_tag_injective :
  forall x y, representable x -> representable y -> Tag_INT_ x = Tag_INT_ y -> x = y.
Proof. exact Tag_INT_inj. Qed.

Example C01_ex : representable (-1152921504606846976) /\
  Tag_INT_ (-1152921504606846976) = 2 ^ 63 + 7 /\ UnTag_INT_ (2 ^ 63 + 7) = -1152921504606846976.
Proof. unfold representable, min_integer, max_integer; repeat split; try reflexivity; lia. Qed.

(** the range is the largest possible: the next integers do not survive *)
Theorem C01_range_is_tight :
  UnTag_INT_ (Tag_INT_ (max_integer + 1)) = min_integer /\
  UnTag_INT_ (Tag_INT_ (min_integer - 1)) = max_integer.
Proof. split; vm_compute; reflexivity. Qed.

(** C02 (with C03, C04): every expression built from representable integers and
    the operators - + * // div rem mod /\ \/ xor \ abs sign inc dec min max ^
    evaluates to its mathematical value, or raises the specified error. *)
Theorem C02_expressions_exact_or_error :
  forall e, literals_ok e -> exact_ops e = true ->
  decode (Load_Math_Expression e) = Some (spec_eval e).
Proof.
  intros e L X. destruct (eval_ok e L X) as [A ->]. now apply decode_encode.
Qed.

(** A value returned is always a representable integer. *)
Theorem C02_result_representable :
  forall e x, literals_ok e -> exact_ops e = true -> spec_eval e = Num x -> representable x.
Proof.
  intros e x L X E. destruct (eval_ok e L X) as [A _]. rewrite E in A. exact A.
Qed.

Example C02_ex :
  let e := EBin OMul (EBin OPow (EInt (-3)) (EInt 20)) (EUn ONeg (EInt 7)) in
  literals_ok e /\ exact_ops e = true /\ spec_eval e = Num (-24407490807) /\
  Load_Math_Expression (EBin OMul e e) = Err_Overflow /\
  Load_Math_Expression (EBin OPow (EInt 2) (EInt 60)) = Err_Overflow /\
  Load_Math_Expression (EBin OPow (EInt (-2)) (EInt 60)) = Err_Overflow.
Proof.
  repeat split; try reflexivity; unfold min_integer, max_integer; cbn; lia.
Qed.

(** C03: division laws, stated on the results. *)
Theorem C03_division_laws :
  forall x y, representable x -> representable y -> y <> 0 ->
  ~ (x = min_integer /\ y = -1) ->
  exists q r d m,
    fct2 OIDiv (Tag_INT_ x) (Tag_INT_ y) = Ok (Tag_INT_ q) /\
    fct2 ORem (Tag_INT_ x) (Tag_INT_ y) = Ok (Tag_INT_ r) /\
    fct2 ODiv (Tag_INT_ x) (Tag_INT_ y) = Ok (Tag_INT_ d) /\
    fct2 OMod (Tag_INT_ x) (Tag_INT_ y) = Ok (Tag_INT_ m) /\
    x = y * q + r /\ Z.abs r < Z.abs y /\ (r = 0 \/ Z.sgn r = Z.sgn x) /\
    x = y * d + m /\ Z.abs m < Z.abs y /\ (m = 0 \/ Z.sgn m = Z.sgn y).
Proof. exact division_laws. Qed.

Theorem C03_zero_divisor :
  forall x o, representable x ->
  o = OIDiv \/ o = ORem \/ o = ODiv \/ o = OMod ->
  fct2 o (Tag_INT_ x) (Tag_INT_ 0) = Err_Zero_Div.
Proof. exact zero_divisor. Qed.

(** the only non-zero divisor for which a quotient does not exist *)
Theorem C03_min_div_minus_one :
  forall o, o = OIDiv \/ o = ODiv ->
  fct2 o (Tag_INT_ min_integer) (Tag_INT_ (-1)) = Err_Overflow.
Proof. intros o [->| ->]; vm_compute; reflexivity. Qed.

Example C03_ex :
  map_ok (fct2 OIDiv (Tag_INT_ (-7)) (Tag_INT_ 2)) = Some (-3) /\
  map_ok (fct2 ORem (Tag_INT_ (-7)) (Tag_INT_ 2)) = Some (-1) /\
  map_ok (fct2 ODiv (Tag_INT_ (-7)) (Tag_INT_ 2)) = Some (-4) /\
  map_ok (fct2 OMod (Tag_INT_ (-7)) (Tag_INT_ 2)) = Some 1.
Proof. vm_compute. auto. Qed.

(** C04: the word-level bitwise operators act bit by bit on the infinite two's
    complement representation and always return a representable integer. *)
Theorem C04_bitwise :
  forall x y, representable x -> representable y ->
  (exists z, Fast_And (Tag_INT_ x) (Tag_INT_ y) = Ok (Tag_INT_ z) /\ representable z /\
     forall i, 0 <= i -> bit z i = bit x i && bit y i) /\
  (exists z, Fast_Or (Tag_INT_ x) (Tag_INT_ y) = Ok (Tag_INT_ z) /\ representable z /\
     forall i, 0 <= i -> bit z i = bit x i || bit y i) /\
  (exists z, Fast_Xor (Tag_INT_ x) (Tag_INT_ y) = Ok (Tag_INT_ z) /\ representable z /\
     forall i, 0 <= i -> bit z i = xorb (bit x i) (bit y i)) /\
  (exists z, Fast_Not (Tag_INT_ x) = Ok (Tag_INT_ z) /\ representable z /\
     forall i, 0 <= i -> bit z i = negb (bit x i)).
Proof. exact bitwise_laws. Qed.

Example C04_ex :
  map_ok (Fast_And (Tag_INT_ (-6)) (Tag_INT_ 13)) = Some 8 /\
  map_ok (Fast_Xor (Tag_INT_ (-6)) (Tag_INT_ 13)) = Some (-9) /\
  map_ok (Fast_Not (Tag_INT_ (-6))) = Some 5.
Proof. vm_compute. auto. Qed.

(** C05: exact for a non-negative left operand, for a right shift, and whenever
    x*2^y is representable or the count is at least 61.  Missing: negative x,
    0 <= y < 61, x*2^y below min_integer; and y = min_integer. *)
Theorem C05_shl_partial :
  forall x y, representable x -> representable y ->
  0 <= x \/ (0 <= y /\ representable (x * 2 ^ y)) \/ 61 <= y \/ (y < 0 /\ y <> min_integer) ->
  decode (Fast_Shl (Tag_INT_ x) (Tag_INT_ y)) = Some (exactly (shift x y)).
Proof.
  intros x y Hx Hy C. rewrite Shl_ok by assumption. apply decode_encode, exactly_ok.
Qed.

Theorem C05_shr_partial :
  forall x y, representable x -> representable y ->
  0 <= x \/ 0 <= y \/ representable (x * 2 ^ - y) \/ y <= -61 ->
  decode (Fast_Shr (Tag_INT_ x) (Tag_INT_ y)) = Some (exactly (shift x (- y))).
Proof.
  intros x y Hx Hy C. rewrite Shr_ok by assumption. apply decode_encode, exactly_ok.
Qed.

(** The full statement of C05 is false: a negative operand is never checked for
    overflow, the result silently wraps ... *)
Theorem C05_shl_refuted :
  exists x y z, representable x /\ representable y /\
    Fast_Shl (Tag_INT_ x) (Tag_INT_ y) = Ok (Tag_INT_ z) /\
    representable z /\ z <> shift x y.
Proof. exists (-1152921504606846976), 1, 0. exact shl_wrap. Qed.

(** ... and a count of min_integer gives 0 for a negative operand. *)
Theorem C05_shl_min_count_refuted :
  exists x y z, representable x /\ representable y /\ y < 0 /\
    Fast_Shl (Tag_INT_ x) (Tag_INT_ y) = Ok (Tag_INT_ z) /\
    z <> shift x y.
Proof. exists (-5), min_integer, 0. exact shl_min_count. Qed.

Theorem C05_shr_refuted :
  exists x y z, representable x /\ representable y /\
    Fast_Shr (Tag_INT_ x) (Tag_INT_ y) = Ok (Tag_INT_ z) /\
    representable z /\ z <> shift x (- y).
Proof. exists (-3), (-60), (-1152921504606846976). exact shr_wrap. Qed.

(** The failure is exactly characterised: the remaining case never raises. *)
Theorem C05_shl_negative_unchecked :
  forall x y, representable x -> x < 0 -> 0 <= y < 61 ->
  exists w, Fast_Shl (Tag_INT_ x) (Tag_INT_ y) = Ok w.
Proof. exact shl_negative_unchecked. Qed.

Example C05_ex :
  map_ok (Fast_Shl (Tag_INT_ 5) (Tag_INT_ 3)) = Some 40 /\
  map_ok (Fast_Shl (Tag_INT_ (-5)) (Tag_INT_ 3)) = Some (-40) /\
  Fast_Shl (Tag_INT_ 5) (Tag_INT_ 58) = Err_Overflow /\
  map_ok (Fast_Shl (Tag_INT_ (-5)) (Tag_INT_ (-1))) = Some (-3).
Proof. vm_compute. auto. Qed.

(** C06: gcd is right except for gcd(min_integer, min_integer). *)
Theorem C06_gcd_partial :
  forall x y, representable x -> representable y ->
  ~ (x = min_integer /\ y = min_integer) ->
  (exists g, Fast_GCD (Tag_INT_ x) (Tag_INT_ y) = Ok (Tag_INT_ g) /\ representable g /\
     0 <= g /\ (g | x) /\ (g | y) /\ forall d, (d | x) -> (d | y) -> (d | g)) \/
  (Fast_GCD (Tag_INT_ x) (Tag_INT_ y) = Err_Overflow /\
     forall g, 0 <= g -> (g | x) -> (g | y) -> (forall d, (d | x) -> (d | y) -> (d | g)) ->
       ~ representable g).
Proof. exact gcd_laws. Qed.

Theorem C06_gcd_refuted :
  exists x y, representable x /\ representable y /\
    exists g, Fast_GCD (Tag_INT_ x) (Tag_INT_ y) = Ok (Tag_INT_ g) /\ representable g /\ g < 0.
Proof. exists min_integer, min_integer. exact gcd_negative. Qed.

Example C06_ex :
  map_ok (Fast_GCD (Tag_INT_ (-84)) (Tag_INT_ 36)) = Some 12 /\
  Fast_GCD (Tag_INT_ 0) (Tag_INT_ min_integer) = Err_Overflow.
Proof. vm_compute. auto. Qed.

(** C47: msb/lsb/popcount of a negative integer must raise a domain error whose
    culprit is that integer.  Refuted: the culprit word is the untagged integer;
    for -8 it is a word with the reference tag and an address outside of any
    stack. *)
Theorem C47_msb_culprit_refuted :
  exists x, representable x /\ x < 0 /\
    exists w, Fast_MSB (Tag_INT_ x) = Err_Domain w /\ w <> Tag_INT_ x /\
      Tag_Mask_Of w = TAG_REF /\ UnTag_Address w = 2 ^ 64 - 8.
Proof. exists (-8). exact msb_culprit. Qed.

(** integer comparisons agree with the mathematical ones *)
Theorem C02_comparisons :
  forall x y, representable x -> representable y ->
  let a := Tag_INT_ x in let b := Tag_INT_ y in
  Fast_Eq a b = (x =? y) /\ Fast_Neq a b = negb (x =? y) /\
  Fast_Lt a b = (x <? y) /\ Fast_Lte a b = (x <=? y) /\
  Fast_Gt a b = (y <? x) /\ Fast_Gte a b = (y <=? x).
Proof. exact comparisons. Qed.

(** the test "both are integers" done on the bitwise and of the two words *)
Theorem C01_both_int_test :
  forall x y, 0 <= x < 2 ^ 64 -> 0 <= y < 2 ^ 64 ->
  X_and_Y_are_INT x y = Tag_Is_INT x && Tag_Is_INT y.
Proof. exact both_int. Qed.

Print Assumptions C01_int_round_trip.
Print Assumptions C01_int_words.
Print Assumptions C01_both_int_test.
Print Assumptions C02_expressions_exact_or_error.
Print Assumptions C02_comparisons.
Print Assumptions C03_division_laws.
Print Assumptions C04_bitwise.
Print Assumptions C05_shl_partial.
Print Assumptions C05_shr_partial.
Print Assumptions C05_shl_refuted.
Print Assumptions C06_gcd_partial.
Print Assumptions C06_gcd_refuted.
Print Assumptions C47_msb_culprit_refuted.
