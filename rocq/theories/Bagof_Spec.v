(** The list of pairs given to '$group_solutions' and what its answers should be. *)
Require Import ZArith List Bool Sorted.
Require Import Verif.Term_Model Verif.Heap_Model Verif.Heap_Proofs Verif.Unify_Spec Verif.Order_Spec Verif.Copy_Spec.
Import ListNotations.
Open Scope Z_scope.

(** [o]: the part of the memory that contains the terms, [m]: the memory with the cells of the
    list, at the addresses [cs].  The elements are pairs (terms with functor [minus]);
    [l]: the words of the pairs, their keys and their values *)
Record sol := Sol { pw : addr; kt : term; vt : term }.
Definition pair_at (o : mem) (minus : Z) (s : sol) : Prop :=
  o (pw s) = Some (Func minus 2) /\
  exists kw vw, o (pw s + 1) = Some (Word kw) /\ den o kw (kt s) /\ o (pw s + 2) = Some (Word vw) /\ den o vw (vt s).
Fixpoint pairs (m o : mem) (nil minus : Z) (cs : list addr) (l : list sol) : Prop :=
  match cs, l with
  | [], [] => True
  | c :: cs, s :: l =>
    (exists u, m c = Some (Word u) /\ derefs o u (STC (pw s))) /\ pair_at o minus s /\
    m (c + 1) = Some (Word (match cs with [] => ATM nil | c' :: _ => LST c' end)) /\
    pairs m o nil minus cs l
  | _, _ => False
  end.
(** the cells of the list are not those of the terms nor of each other *)
Fixpoint separate (o : mem) (cs : list addr) : Prop :=
  match cs with
  | [] => True
  | c :: cs => o c = None /\ o (c + 1) = None /\ Forall (fun c' => c' + 1 < c \/ c + 1 < c') cs /\ separate o cs
  end.

(** the groups: consecutive solutions with the same key; the next one has another key *)
Inductive groups : list sol -> list (term * list term) -> Prop :=
| gr_nil : groups [] []
| gr_cons s l1 l2 gs :
    Forall (fun s' => same_term (kt s) (kt s')) l1 ->
    match l2 with [] => True | s' :: _ => ~ same_term (kt s) (kt s') end ->
    groups l2 gs ->
    groups (s :: l1 ++ l2) ((kt s, map vt (s :: l1)) :: gs).
