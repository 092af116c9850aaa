(** What ranges of the solver denote. *)
Require Import ZArith List Bool Sorted.
Require Import Verif.FdRange_Model.
Import ListNotations.
Open Scope Z_scope.

(** the bit [n] of a vector *)
Definition vin (v : list Z) (n : Z) : bool := (0 <=? n) && Z.testbit (nth (Z.to_nat (n / 64)) v 0) (n mod 64).
Section Spec.
Variable sz : nat.
Definition vok (v : list Z) : Prop := length v = sz /\ Forall (fun w => 0 <= w < 2 ^ 64) v.
(** the elements of a range *)
Definition rin (r : range) (n : Z) : Prop := rmin r <= n <= rmax r /\ match vec r with None => True | Some v => vin v n = true end.
Definition is_int (x : Z) : Prop := INT_MIN <= x <= INT_MAX.
(** Well-formed ranges: an interval, or a vector whose first and last elements are the bounds.
    Only vectors can be incomplete. *)
Definition rok (r : range) : Prop := INT_MIN < rmin r <= INT_MAX /\ is_int (rmax r) /\
  match vec r with
  | None => extra_cstr r = false
  | Some v => vok v /\ (rmin r <= rmax r -> vin v (rmin r) = true /\ vin v (rmax r) = true /\ forall n, vin v n = true -> rmin r <= n <= rmax r)
  end.
(** The range stands for the set [T] of integers (domains have no negative integers): all of it, or what
    fits in a vector when it is marked as incomplete. *)
Definition means (r : range) (T : Z -> Prop) : Prop :=
  forall n, 0 <= n -> extra_cstr r = false \/ n <= vmax sz -> (rin r n <-> T n).
(** All the elements of the range are in [T], and all of [T] is there unless it is marked as incomplete. *)
Definition covers (r : range) (T : Z -> Prop) : Prop :=
  (forall n, 0 <= n -> rin r n -> T n) /\ (extra_cstr r = false -> forall n, 0 <= n -> T n -> rin r n).
(** An operand of arithmetic standing for the set [T]: no negative integers; not "empty but incomplete". *)
Definition operand (r : range) (T : Z -> Prop) : Prop :=
  rok r /\ 0 <= rmin r /\ means r T /\ (forall n, T n -> 0 <= n) /\ (rmax r < rmin r -> extra_cstr r = false).
(** the results of an operation on members *)
Definition lift (f : Z -> Z -> Z) (T T1 : Z -> Prop) (x : Z) : Prop := exists a b, T a /\ T1 b /\ x = f a b.
Definition quotients (T T1 : Z -> Prop) (x : Z) : Prop := (exists a b, T a /\ T1 b /\ b <> 0 /\ a = b * x) \/ (x = 0 /\ T 0 /\ exists b, T1 b).
Definition remainders (T T1 : Z -> Prop) (x : Z) : Prop := exists a b, T a /\ T1 b /\ b <> 0 /\ x = Z.rem a b.
(** the elements in increasing order *)
Definition listing (r : range) (l : list Z) : Prop := StronglySorted Z.lt l /\ forall n, In n l <-> rin r n.
(** the words around a vector: where the reading goes on below the vector it finds something *)
Definition around_ok (a : around) : Prop :=
  0 <= above a < 2 ^ 64 /\ (above a = 0 \/ exists l w l', below a = l ++ w :: l' /\ Forall (fun x => x = 0) l /\ 0 < w < 2 ^ 64 /\ Z.of_nat (length l) < 2 ^ 24).
End Spec.
