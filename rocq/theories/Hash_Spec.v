(** What the generic hash table must be: a finite map (C21).  Nothing here refers to
    hash_tbl.c except the types of the memory. *)
Require Import ZArith List Bool Lia.
Import ListNotations.
Open Scope Z_scope.

(** a finite map from keys to values *)
Definition map_ := Z -> option Z.
Definition m_empty : map_ := fun _ => None.
Definition m_set (f : map_) (k v : Z) : map_ := fun x => if x =? k then Some v else f x.
Definition m_del (f : map_) (k : Z) : map_ := fun x => if x =? k then None else f x.
(** insertion: an existing element is kept unless [replace] *)
Definition m_insert (f : map_) (k v : Z) (replace : bool) : map_ :=
  match f k with Some _ => if replace then m_set f k v else f | None => m_set f k v end.
(** [l] lists the elements, each once *)
Definition m_list (f : map_) (l : list (Z * Z)) : Prop :=
  NoDup (map fst l) /\ forall k v, f k = Some v <-> In (k, v) l.
Definition m_card (f : map_) (n : Z) : Prop := exists l, m_list f l /\ Z.of_nat (length l) = n.
