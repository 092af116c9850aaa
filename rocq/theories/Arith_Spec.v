(** Specification of Prolog integer arithmetic on mathematical integers,
    independent of words and tags. *)
Require Import ZArith Bool.
Require Import Verif.Word_Model Verif.Arith_Model.
Open Scope Z_scope.

Definition min_integer : Z := - 2 ^ 60.
Definition max_integer : Z := 2 ^ 60 - 1.
Definition representable (x : Z) : Prop := min_integer <= x <= max_integer.
Definition representableb (x : Z) : bool := (min_integer <=? x) && (x <=? max_integer).

(** What a user sees: a number or an error term. *)
Inductive answer : Type :=
| Num (x : Z)
| Overflow | ZeroDivisor | Undefined
| NotAFloat (x : Z).       (* type_error(float, x) *)

(** A mathematical result is returned when it is representable, and is an
    overflow error otherwise. *)
Definition exactly (x : Z) : answer := if representableb x then Num x else Overflow.

Definition spec1 (o : unop) (x : Z) : answer :=
  match o with
  | ONeg => exactly (- x)
  | OInc => exactly (x + 1)
  | ODec => exactly (x - 1)
  | ONot => exactly (- x - 1)                  (* one's complement *)
  | OAbs => exactly (Z.abs x)
  | OSign => exactly (Z.sgn x)
  | OPlus => exactly x
  end.

(** [bit x i]: bit [i] of the infinite two's complement representation of x *)
Definition bit (x i : Z) : bool := Z.odd (x / 2 ^ i).

(** x * 2^y when y >= 0, floor (x / 2^(-y)) otherwise *)
Definition shift (x y : Z) : Z :=
  if 0 <=? y then x * 2 ^ y else x / 2 ^ (- y).

Definition spec2 (o : binop) (x y : Z) : answer :=
  match o with
  | OAdd => exactly (x + y)
  | OSub => exactly (x - y)
  | OMul => exactly (x * y)
  | OIDiv => if y =? 0 then ZeroDivisor
             else exactly (Z.sgn x * Z.sgn y * (Z.abs x / Z.abs y))
  | ODiv => if y =? 0 then ZeroDivisor else exactly (x / y)
  | ORem => if y =? 0 then ZeroDivisor
            else exactly (x - y * (Z.sgn x * Z.sgn y * (Z.abs x / Z.abs y)))
  | OMod => if y =? 0 then ZeroDivisor else exactly (x - y * (x / y))
  | OAnd => exactly (Z.land x y)
  | OOr => exactly (Z.lor x y)
  | OXor => exactly (Z.lxor x y)
  | OPow =>
    if 0 <=? y then exactly (x ^ y)
    else if x =? 0 then Undefined
    else if x =? 1 then Num 1
    else if x =? -1 then Num (if Z.even y then 1 else -1)
    else NotAFloat x
  | OMin => exactly (if x <? y then x else y)
  | OMax => exactly (if x <? y then y else x)
  | OGcd => exactly (Z.gcd x y)
  | OShl => exactly (shift x y)
  | OShr => exactly (shift x (- y))
  end.

Fixpoint spec_eval (e : expr) : answer :=
  match e with
  | EInt x => Num x
  | EUn o e => match spec_eval e with Num x => spec1 o x | r => r end
  | EBin o e1 e2 =>
    match spec_eval e1 with
    | Num x => match spec_eval e2 with Num y => spec2 o x y | r => r end
    | r => r
    end
  end.

(** Every integer literal of the expression is representable (the reader only
    produces such integers). *)
Fixpoint literals_ok (e : expr) : Prop :=
  match e with
  | EInt x => representable x
  | EUn _ e => literals_ok e
  | EBin _ e1 e2 => literals_ok e1 /\ literals_ok e2
  end.

(** ** Decoding the result of an operation *)
Definition decode (r : res) : option answer :=
  match r with
  | Ok w => if Tag_Is_INT w then Some (Num (UnTag_INT_ w)) else None
  | Err_Overflow => Some Overflow
  | Err_Zero_Div => Some ZeroDivisor
  | Err_Undefined => Some Undefined
  | Err_Type_Float w =>
    if Tag_Is_INT w then Some (NotAFloat (UnTag_INT_ w)) else None
  | Err_Domain _ => None
  | Out_Of_Fuel => None
  end.

(** what the machine must produce for an answer *)
Definition encode (a : answer) : res :=
  match a with
  | Num x => Ok (Tag_INT_ x)
  | Overflow => Err_Overflow
  | ZeroDivisor => Err_Zero_Div
  | Undefined => Err_Undefined
  | NotAFloat x => Err_Type_Float (Tag_INT_ x)
  end.

Definition answer_ok (a : answer) : Prop :=
  match a with Num x => representable x | NotAFloat x => representable x | _ => True end.


(** The operators whose implementation is exact on every pair of operands (see
    the refutations for the other three). *)
Definition exact_op (o : binop) : bool :=
  match o with OGcd | OShl | OShr => false | _ => true end.
Fixpoint exact_ops (e : expr) : bool :=
  match e with
  | EInt _ => true
  | EUn _ e => exact_ops e
  | EBin o e1 e2 => exact_op o && exact_ops e1 && exact_ops e2
  end.
