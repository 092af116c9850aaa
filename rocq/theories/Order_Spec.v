(** The standard order of terms, as documented: variables (by age/address), then
    FD variables, floats by value, integers by value, atoms by name (bytewise),
    compound terms by arity, then name, then arguments from left to right. *)
Require Import ZArith List Floats.SpecFloat.
Require Import Verif.Term_Model.
Import ListNotations.
Open Scope Z_scope.

Definition rank (t : term) : Z :=
  match t with
  | TVar _ => 0 | TFdv _ => 1 | TFlt _ => 2 | TInt _ => 3 | TAtm _ => 4 | TCmp _ _ => 5
  end.

(** lexicographic order on strings: a proper prefix comes first, otherwise the
    first differing byte decides *)
Definition str_lt (s t : list Z) : Prop :=
  (exists y r, t = s ++ y :: r) \/
  (exists p x s' y t', s = p ++ x :: s' /\ t = p ++ y :: t' /\ x < y).

(** 0.0 and -0.0 are the same value *)
Definition same_value (d1 d2 : spec_float) : Prop :=
  d1 = d2 \/ (exists s1 s2, d1 = S754_zero s1 /\ d2 = S754_zero s2).

(** identical terms, up to the sign of a zero *)
Inductive same_term : term -> term -> Prop :=
| same_var a : same_term (TVar a) (TVar a)
| same_fdv a : same_term (TFdv a) (TFdv a)
| same_flt d1 d2 : same_value d1 d2 -> same_term (TFlt d1) (TFlt d2)
| same_int n : same_term (TInt n) (TInt n)
| same_atm i : same_term (TAtm i) (TAtm i)
| same_cmp f us vs : Forall2 same_term us vs -> same_term (TCmp f us) (TCmp f vs).

Section Lt.
Variable name : Z -> list Z.
Inductive term_lt : term -> term -> Prop :=
| lt_rank u v : rank u < rank v -> term_lt u v
| lt_var a b : a < b -> term_lt (TVar a) (TVar b)
| lt_fdv a b : a < b -> term_lt (TFdv a) (TFdv b)
| lt_flt d1 d2 : SFcompare d1 d2 = Some Lt -> term_lt (TFlt d1) (TFlt d2)
| lt_int m n : m < n -> term_lt (TInt m) (TInt n)
| lt_atm i j : str_lt (name i) (name j) -> term_lt (TAtm i) (TAtm j)
| lt_arity f us g vs : (length us < length vs)%nat -> term_lt (TCmp f us) (TCmp g vs)
| lt_name f us g vs : length us = length vs -> str_lt (name f) (name g) ->
    term_lt (TCmp f us) (TCmp g vs)
| lt_args f us1 u us2 vs1 v vs2 : Forall2 same_term us1 vs1 -> length us2 = length vs2 ->
    term_lt u v -> term_lt (TCmp f (us1 ++ u :: us2)) (TCmp f (vs1 ++ v :: vs2)).
End Lt.
