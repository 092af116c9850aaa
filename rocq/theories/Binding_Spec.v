(** What remains of a memory when the local stack is cut back. *)
Require Import ZArith List Bool.
Require Import Verif.Heap_Model.
Open Scope Z_scope.

(** the words from [lt] on are discarded *)
Definition discard (lt : addr) (m : mem) : mem := fun a => if lt <=? a then None else m a.

(** the free part of the global stack *)
Definition free_from (L h : addr) (m : mem) : Prop := 0 <= h < L /\ forall a, h <= a < L -> m a = None.
