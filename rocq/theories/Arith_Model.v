(** Integer arithmetic functions of /repo/src/BipsPl/arith_inl_c.c.

    Each [Pl_Fct_Fast_*] takes tagged words.  [Pl_Err_*] never return, hence the
    result type [res].  C signed arithmetic is on [PlLong] (64 bits); the
    operands are untagged 61-bit values.  Left shift of a negative number is
    taken as gcc does it (two's complement, wrap), as the code assumes. *)
Require Import ZArith Bool List.
Require Import Verif.Word_Model.
Import ListNotations.
Open Scope Z_scope.

Inductive res : Type :=
| Ok (w : Z)                (* tagged word returned *)
| Err_Overflow              (* evaluation_error(int_overflow) *)
| Err_Zero_Div              (* evaluation_error(zero_divisor) *)
| Err_Undefined             (* evaluation_error(undefined) *)
| Err_Type_Float (w : Z)    (* type_error(float, w) *)
| Err_Domain (w : Z)        (* domain_error(not_less_than_zero, w), w used as a term word *)
| Out_Of_Fuel.              (* never reached, see the theorems *)

(** C division and remainder on PlLong: truncation toward zero *)
Definition c_div (x y : Z) : Z := Z.quot x y.
Definition c_rem (x y : Z) : Z := Z.rem x y.

(** arith_inl_c.c:593-623 mul_overflow, the __GNUC__ branch:
    __builtin_mul_overflow returns (overflowed, wrapped result) *)
Definition mul_overflow (a b : Z) : bool * Z :=
  let p := a * b in
  ((p <? - 2 ^ 63) || (2 ^ 63 - 1 <? p), s64 p).

(** arith_inl_c.c:664-676 the loop of pow_overflow; result codes 0 = OK, 1 =
    overflow.  One fuel unit per iteration; [None] = fuel exhausted. *)
Fixpoint pow_loop (fuel : nat) (r a b : Z) : option (Z * Z) :=
  match fuel with
  | O => None
  | S fuel =>
    let '(ovf, r) := if Z.land b 1 =? 1 then mul_overflow r a else (false, r) in
    if ovf then Some (1, r) else
    let b := Z.shiftr b 1 in
    if b =? 0 then Some (0, r) else
    let '(ovf, a) := mul_overflow a a in
    if ovf then Some (1, r) else pow_loop fuel r a b
  end.

(** arith_inl_c.c:632-677 *)
Definition pow_overflow (a b : Z) : option (Z * Z) :=
  if a =? 1 then Some (0, 1)
  else if a =? -1 then Some (0, 1 - Z.shiftl (Z.land b 1) 1)
  else if a =? 0 then
    if 0 <=? b then Some (0, if b =? 0 then 1 else 0) else Some (2, 0)
  else if b <? 0 then Some (3, 0)
  else pow_loop 64 1 a b.

(** arith_inl_c.c:843-850 *)
Definition Fast_Neg (xw : Z) : res :=
  let x := UnTag_INT_ xw in
  if x =? INT_LOWEST_VALUE then Err_Overflow else Ok (Tag_INT_ (- x)).

(** arith_inl_c.c:852-859 *)
Definition Fast_Inc (xw : Z) : res :=
  let x := UnTag_INT_ xw in
  if x =? INT_GREATEST_VALUE then Err_Overflow else Ok (Tag_INT_ (x + 1)).

(** arith_inl_c.c:861-868 *)
Definition Fast_Dec (xw : Z) : res :=
  let x := UnTag_INT_ xw in
  if x =? INT_LOWEST_VALUE then Err_Overflow else Ok (Tag_INT_ (x - 1)).

(** arith_inl_c.c:870-879 *)
Definition Fast_Add (xw yw : Z) : res :=
  let x := UnTag_INT_ xw in let y := UnTag_INT_ yw in
  let z := s64 (x + y) in
  if TEST_INT_OVERFLOW z then Err_Overflow else Ok (Tag_INT_ z).

(** arith_inl_c.c:881-890 *)
Definition Fast_Sub (xw yw : Z) : res :=
  let x := UnTag_INT_ xw in let y := UnTag_INT_ yw in
  let z := s64 (x - y) in
  if TEST_INT_OVERFLOW z then Err_Overflow else Ok (Tag_INT_ z).

(** arith_inl_c.c:892-901 *)
Definition Fast_Mul (xw yw : Z) : res :=
  let x := UnTag_INT_ xw in let y := UnTag_INT_ yw in
  let '(ovf, z) := mul_overflow x y in
  if ovf || TEST_INT_OVERFLOW z then Err_Overflow else Ok (Tag_INT_ z).

(** arith_inl_c.c:903-916   (//) *)
Definition Fast_Integer_Div (xw yw : Z) : res :=
  let x := UnTag_INT_ xw in let y := UnTag_INT_ yw in
  if y =? 0 then Err_Zero_Div
  else if (x =? INT_LOWEST_VALUE) && (y =? -1) then Err_Overflow
  else Ok (Tag_INT_ (c_div x y)).

(** arith_inl_c.c:931-934, 963-966: m = x % y; if (m != 0 && (m ^ y) < 0) m += y *)
Definition floor_mod (x y : Z) : Z :=
  let m := c_rem x y in
  if negb (m =? 0) && (Z.lxor m y <? 0) then m + y else m.

(** arith_inl_c.c:918-939   (div) *)
Definition Fast_Integer_Div2 (xw yw : Z) : res :=
  let x := UnTag_INT_ xw in let y := UnTag_INT_ yw in
  if y =? 0 then Err_Zero_Div
  else if (x =? INT_LOWEST_VALUE) && (y =? -1) then Err_Overflow
  else Ok (Tag_INT_ (c_div (x - floor_mod x y) y)).

(** arith_inl_c.c:941-951 *)
Definition Fast_Rem (xw yw : Z) : res :=
  let x := UnTag_INT_ xw in let y := UnTag_INT_ yw in
  if y =? 0 then Err_Zero_Div else Ok (Tag_INT_ (c_rem x y)).

(** arith_inl_c.c:953-969 *)
Definition Fast_Mod (xw yw : Z) : res :=
  let x := UnTag_INT_ xw in let y := UnTag_INT_ yw in
  if y =? 0 then Err_Zero_Div else Ok (Tag_INT_ (floor_mod x y)).

(** arith_inl_c.c:971-987: on whole words *)
Definition Fast_And (xw yw : Z) : res := Ok (Z.land xw yw).
Definition Fast_Or (xw yw : Z) : res := Ok (Z.lor xw yw).
Definition Fast_Xor (xw yw : Z) : res := Ok (Z.lor (Z.lxor xw yw) TAG_INT).

(** arith_inl_c.c:989-994 *)
Definition Fast_Not (xw : Z) : res :=
  let x := UnTag_INT_ xw in Ok (Tag_INT_ (Z.lnot x)).

(** arith_inl_c.c:1004-1024, 1034-1047.  Shl and Shr call each other for a
    negative shift count; the callee then gets a positive count, so the
    recursion has depth 2: [Shl_pos]/[Shr_pos] are the bodies for y >= 0. *)
Definition Shl_pos (x y : Z) : res :=
  if VALUE_SIZE <=? y then
    if negb (x =? 0) then Err_Overflow else Ok (Tag_INT_ 0)
  else if Z.shiftr INT_GREATEST_VALUE y <? x then Err_Overflow
  else Ok (Tag_INT_ (s64 (Z.shiftl x y))).

Definition Shr_pos (x y : Z) : res :=
  Ok (Tag_INT_ (if WORD_SIZE <=? y then (if 0 <=? x then 0 else -1)
                else Z.shiftr x y)).

(** arith_inl_c.c:997-1025 *)
Definition Fast_Shl (xw yw : Z) : res :=
  let x := UnTag_INT_ xw in let y := UnTag_INT_ yw in
  if y <? 0 then
    if y =? INT_LOWEST_VALUE then Ok (Tag_INT_ 0)
    else Shr_pos x (UnTag_INT_ (Tag_INT_ (- y)))
  else Shl_pos x y.

(** arith_inl_c.c:1027-1048 *)
Definition Fast_Shr (xw yw : Z) : res :=
  let x := UnTag_INT_ xw in let y := UnTag_INT_ yw in
  if y <? 0 then
    if y =? INT_LOWEST_VALUE then
      if x =? 0 then Ok xw else Err_Overflow
    else Shl_pos x (UnTag_INT_ (Tag_INT_ (- y)))
  else Shr_pos x y.

(** arith_inl_c.c:1050-1075: note that the culprit passed to Pl_Err_Domain is the
    untagged integer [x] used as a term word. Pl_Least_Significant_Bit etc. are
    modelled by their meaning (they are gcc builtins on most targets). *)
Fixpoint lsb_pos (p : positive) : Z :=
  match p with xO p => 1 + lsb_pos p | _ => 0 end.
Fixpoint popcount_pos (p : positive) : Z :=
  match p with xO p => popcount_pos p | xI p => 1 + popcount_pos p | xH => 1 end.
Definition lsb (x : Z) : Z := match x with Zpos p => lsb_pos p | _ => -1 end.
Definition popcount (x : Z) : Z := match x with Zpos p => popcount_pos p | _ => 0 end.

Definition Fast_LSB (xw : Z) : res :=
  let x := UnTag_INT_ xw in
  if x <? 0 then Err_Domain (u64 x) else Ok (Tag_INT_ (if x =? 0 then -1 else lsb x)).
Definition Fast_MSB (xw : Z) : res :=
  let x := UnTag_INT_ xw in
  if x <? 0 then Err_Domain (u64 x) else Ok (Tag_INT_ (if x =? 0 then -1 else Z.log2 x)).
Definition Fast_Popcount (xw : Z) : res :=
  let x := UnTag_INT_ xw in
  if x <? 0 then Err_Domain (u64 x) else Ok (Tag_INT_ (popcount x)).

(** arith_inl_c.c:1077-1084 *)
Definition Fast_Abs (xw : Z) : res :=
  let x := UnTag_INT_ xw in
  if x =? INT_LOWEST_VALUE then Err_Overflow
  else Ok (if x <? 0 then Tag_INT_ (- x) else xw).

(** arith_inl_c.c:1086-1091 *)
Definition Fast_Sign (xw : Z) : res :=
  let x := UnTag_INT_ xw in
  Ok (if x <? 0 then Tag_INT_ (-1) else if x =? 0 then Tag_INT_ 0 else Tag_INT_ 1).

(** arith_inl_c.c:1109-1114: the Euclid loop, one fuel unit per iteration *)
Fixpoint gcd_loop (fuel : nat) (x y : Z) : option Z :=
  match fuel with
  | O => None
  | S fuel => if y =? 0 then Some x else gcd_loop fuel y (c_rem x y)
  end.

(** arith_inl_c.c:1093-1116 *)
Definition Fast_GCD (xw yw : Z) : res :=
  let x := UnTag_INT_ xw in let y := UnTag_INT_ yw in
  if ((x =? INT_LOWEST_VALUE) && (y =? 0)) || ((x =? 0) && (y =? INT_LOWEST_VALUE))
  then Err_Overflow
  else
    let x := if x <? 0 then - x else x in
    let y := if y <? 0 then - y else y in
    match gcd_loop 130 x y with
    | Some g => Ok (Tag_INT_ g)
    | None => Out_Of_Fuel
    end.

(** arith_inl_c.c:1121-1139 *)
Definition Fast_IPow (xw yw : Z) : res :=
  let x := UnTag_INT_ xw in let y := UnTag_INT_ yw in
  match pow_overflow x y with
  | None => Out_Of_Fuel
  | Some (s, z) =>
    if s =? 2 then Err_Undefined
    else if s =? 3 then Err_Type_Float xw
    else if negb (s =? 0) || TEST_INT_OVERFLOW z then Err_Overflow
    else Ok (Tag_INT_ z)
  end.

(** arith_inl_c.c:1278-1340, both arguments integers (Compare_Numbers line 1302;
    CMP_SAME_TYPE is the sign of the difference); on equality the second word *)
Definition Fct_Min (xw yw : Z) : res :=
  let x := UnTag_INT_ xw in let y := UnTag_INT_ yw in
  Ok (if x <? y then xw else if y <? x then yw
      else if Tag_Is_FLT xw then xw else yw).
Definition Fct_Max (xw yw : Z) : res :=
  let x := UnTag_INT_ xw in let y := UnTag_INT_ yw in
  Ok (if y <? x then xw else if x <? y then yw
      else if Tag_Is_FLT xw then xw else yw).

(** arith_inl_c.c:1589-1631: integer comparisons *)
Definition Fast_Eq (xw yw : Z) : bool := xw =? yw.
Definition Fast_Neq (xw yw : Z) : bool := negb (xw =? yw).
Definition Fast_Lt (xw yw : Z) : bool := UnTag_INT_ xw <? UnTag_INT_ yw.
Definition Fast_Lte (xw yw : Z) : bool := UnTag_INT_ xw <=? UnTag_INT_ yw.
Definition Fast_Gt (xw yw : Z) : bool := UnTag_INT_ yw <? UnTag_INT_ xw.
Definition Fast_Gte (xw yw : Z) : bool := UnTag_INT_ yw <=? UnTag_INT_ xw.

(** arith_inl_c.c:749 X_and_Y_are_INT(x,y) = Tag_Is_INT(x & y) *)
Definition X_and_Y_are_INT (xw yw : Z) : bool := Tag_Is_INT (Z.land xw yw).

(** Integer expressions handled by Load_Math_Expression
    (arith_inl_c.c:440-524): an integer leaf, or an evaluable functor applied to
    evaluated arguments.  Float leaves are not modelled.  C leaves the order of
    evaluation of the two arguments of CALL_MATH_FCT_2 (line 518) unspecified;
    left to right is modelled. *)
Inductive unop := ONeg | OInc | ODec | ONot | OAbs | OSign | OPlus.
Inductive binop := OAdd | OSub | OMul | OIDiv | ODiv | ORem | OMod
                 | OAnd | OOr | OXor | OPow | OMin | OMax | OGcd | OShl | OShr.

Inductive expr : Type :=
| EInt (x : Z)
| EUn (o : unop) (e : expr)
| EBin (o : binop) (e1 e2 : expr).

(** arith_inl_c.c:190-219 ADD_EVALUABLE table, integer versions *)
Definition fct1 (o : unop) : Z -> res :=
  match o with
  | ONeg => Fast_Neg | OInc => Fast_Inc | ODec => Fast_Dec | ONot => Fast_Not
  | OAbs => Fast_Abs | OSign => Fast_Sign | OPlus => fun w => Ok w
  end.
Definition fct2 (o : binop) : Z -> Z -> res :=
  match o with
  | OAdd => Fast_Add | OSub => Fast_Sub | OMul => Fast_Mul
  | OIDiv => Fast_Integer_Div | ODiv => Fast_Integer_Div2
  | ORem => Fast_Rem | OMod => Fast_Mod
  | OAnd => Fast_And | OOr => Fast_Or | OXor => Fast_Xor | OPow => Fast_IPow
  | OMin => Fct_Min | OMax => Fct_Max | OGcd => Fast_GCD
  | OShl => Fast_Shl | OShr => Fast_Shr
  end.

Fixpoint Load_Math_Expression (e : expr) : res :=
  match e with
  | EInt x => Ok (Tag_INT_ x)
  | EUn o e =>
    match Load_Math_Expression e with Ok w => fct1 o w | r => r end
  | EBin o e1 e2 =>
    match Load_Math_Expression e1 with
    | Ok w1 =>
      match Load_Math_Expression e2 with Ok w2 => fct2 o w1 w2 | r => r end
    | r => r
    end
  end.
