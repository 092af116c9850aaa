(** What labeling has to do.  Nothing of Label_Model is used but the types. *)
Require Import ZArith List Bool Sorting.Sorted.
Require Import Verif.Label_Model.
Import ListNotations.
Open Scope Z_scope.

(** an increasing list of values that a domain can have *)
Definition wf (D : dom) : Prop := StronglySorted Z.lt D /\ D <> [] /\ forall z, In z D -> 0 <= z <= 2 ^ 28 - 1.
(** The propagation: it fails only when no value of the domain is in a solution ([P]), else it removes only values that are in no
    solution, and at least one stays; a value that is left alone is accepted when it is told again. *)
Definition prune_ok (P : Z -> Prop) (prune : dom -> option dom) : Prop := forall D, wf D ->
  match prune D with
  | None => forall z, In z D -> ~ P z
  | Some D' => wf D' /\ incl D' D /\ (forall z, In z D -> P z -> In z D') /\ (forall w, D' = [w] -> prune [w] = Some [w])
  end.
(** The answers for a domain: no value twice, each in the domain and accepted by the propagation, each value of a solution *)
Definition enumerates (P : Z -> Prop) (prune : dom -> option dom) (D : Z -> Prop) (L : list Z) : Prop :=
  NoDup L /\ (forall z, In z L -> D z /\ prune [z] = Some [z]) /\ (forall z, D z -> P z -> In z L).
(** first, last, second, last but one, ... *)
Inductive outside_in : bool -> list Z -> list Z -> Prop :=
| oi_one b v : outside_in b [v] [v]
| oi_min v D L : outside_in false D L -> outside_in true (v :: D) (v :: L)
| oi_max v D L : outside_in true D L -> outside_in false (D ++ [v]) (v :: L).

(** a strict order *)
Definition strict (cmp : info -> info -> bool) : Prop :=
  (forall a, cmp a a = false) /\ (forall a b c, cmp a b = true -> cmp b c = true -> cmp a c = true).
(** one of the first [n] cells *)
Definition among (n : nat) (a : list nat) (x : nat) : Prop := exists i, (i < n)%nat /\ nth i a 0%nat = x.
