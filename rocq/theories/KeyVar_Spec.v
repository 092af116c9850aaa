(** The solutions Key - Value of bagof/3 after linking. *)
Require Import ZArith List Bool.
Require Import Verif.Term_Model Verif.Heap_Model Verif.Unify_Spec Verif.Copy_Spec.
Import ListNotations.
Open Scope Z_scope.

(** the key of a solution: its first argument *)
Definition key_of (t : term) : term := match t with TCmp _ (k :: _) => k | t => t end.
Definition is_pair (t : term) : Prop := exists f k ts, t = TCmp f (k :: ts) /\ f <> ATOM_DOT.

(** [u] is a copy of the solution [t]: the i-th variable of its key is the i-th of [V], the
    others are not in [V] *)
Definition linked (V : list addr) (t u : term) : Prop :=
  exists ro xs, u = ren ro t /\
  (forall a b, In a (occs false t) -> In b (occs false t) -> ro a = ro b -> a = b) /\
  first_occ (occs false (key_of t)) xs /\
  (forall j x, nth_error xs j = Some x -> nth_error V j = Some (ro x)) /\
  (forall x, In x (occs false t) -> In (ro x) V -> In x xs).

(** two copies have only variables of [V] in common *)
Definition only_common (V : list addr) (u v : term) : Prop :=
  forall a, In a (occs false u) -> In a (occs false v) -> In a V.
