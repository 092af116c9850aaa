(** What restricting the domain of a variable must do. *)
Require Import ZArith List Bool.
Require Import Verif.FdRange_Model Verif.FdRange_Spec Verif.FdTell_Model.
Import ListNotations.
Open Scope Z_scope.

Section S.
Variable sz : nat.
(** A variable: an integer, or an unbound FD variable with at least two values, all in 0..INTERVAL_MAX_INTEGER. *)
Definition fdv_ok (x : fdv) : Prop :=
  match tagv x with
  | Some n => INT_MIN < n <= INT_MAX /\ rmin (frange x) = n /\ rmax (frange x) = n /\ vec (frange x) = None /\ nb_elem x = 1
  | None => rok sz (frange x) /\ 0 <= rmin (frange x) < rmax (frange x) /\ rmax (frange x) <= IMAX /\
            exists l, listing (frange x) l /\ nb_elem x = Z.of_nat (length l)
  end.
Notation dom x := (rin (frange x)).
(** The values [x] stands for: all of them unless its range is marked as incomplete. *)
Definition stands (x : fdv) (T : Z -> Prop) : Prop :=
  match tagv x with Some n => forall k, 0 <= k -> (T k <-> k = n) | None => means sz (frange x) T end.
(** the events of the change from [x] to [x']: minimum, maximum, one of them, domain, value *)
Definition events (x x' : fdv) (m : Z) : Prop :=
  (Z.testbit m 0 = true <-> rmin (frange x) <> rmin (frange x')) /\
  (Z.testbit m 1 = true <-> rmax (frange x) <> rmax (frange x')) /\
  (Z.testbit m 2 = true <-> rmin (frange x) <> rmin (frange x') \/ rmax (frange x) <> rmax (frange x')) /\
  (Z.testbit m 3 = true <-> (exists k, dom x k /\ ~ dom x' k) \/ extra_cstr (frange x) <> extra_cstr (frange x')) /\
  (Z.testbit m 4 = true <-> tagv x = None /\ tagv x' <> None).
(** [t] is a correct answer to: the value of [x] is in [R].  If the program did not warn: success gives the
    variable that stands for the intersection, failure means that the intersection is empty.  Always: the
    new domain is part of the old one and of [R]. *)
Definition tell_ok (x : fdv) (R : Z -> Prop) (t : told) : Prop :=
  (success t = true -> fdv_ok (var t) /\ events x (var t) (propag t) /\ (exists k, dom (var t) k) /\
     (forall k, dom (var t) k -> dom x k /\ (0 <= k -> R k))) /\
  (warned t = false -> success t = true -> forall T, stands x T -> stands (var t) (fun k => T k /\ R k)) /\
  (warned t = false -> success t = false -> forall T, stands x T -> forall k, 0 <= k -> ~ (T k /\ R k)).
(** The told range [r] does not complete the range of [x] without removing an element. *)
Definition flag_kept (x : fdv) (r : range) : Prop :=
  extra_cstr (frange x) = true -> rmin (frange x) <> 0 -> (forall k, dom x k -> rin r k) -> extra_cstr r = true \/ (vec r = None /\ vmax sz < rmax r).
End S.
