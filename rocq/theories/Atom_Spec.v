(** What the atom table must be: an injective finite map from names to atoms that only
    grows (C22).  The events are those of Atom_Model. *)
Require Import ZArith List Bool.
Require Import Verif.Atom_Model.
Import ListNotations.
Open Scope Z_scope.

(** the atom of each name *)
Definition amap := str -> option Z.
Definition aempty : amap := fun _ => None.
Definition aset (f : amap) (s : str) (i : Z) : amap := fun t => if str_eqb t s then Some i else f t.

(** [ev_ok max f e f']: in a world where the atoms are [f], the event [e] is right and the
    atoms become [f'] *)
Inductive ev_ok (max : Z) (f : amap) : aev -> amap -> Prop :=
| ok_old : forall s i, f s = Some i -> ev_ok max f (ECreate s (Atom i)) f
| ok_new : forall s i, f s = None -> 0 <= i < max -> (forall t, f t <> Some i) -> ev_ok max f (ECreate s (Atom i)) (aset f s i)
| ok_full : forall s, f s = None -> (forall i, 0 <= i < max -> exists t, f t = Some i) -> ev_ok max f (ECreate s TableFull) f
| ok_found : forall s i, f s = Some i -> ev_ok max f (EFind s i) f
| ok_absent : forall s, f s = None -> ev_ok max f (EFind s (-1)) f
| ok_next : forall l i, l < i -> (exists t, f t = Some i) -> (forall j t, l < j < i -> f t <> Some j) -> ev_ok max f (ENext l i) f
| ok_last : forall l, (forall j t, l < j -> f t <> Some j) -> ev_ok max f (ENext l (-1)) f
| ok_name : forall i s, f s = Some i -> ev_ok max f (EName i s) f.
Inductive evs_ok (max : Z) : amap -> list aev -> amap -> Prop :=
| evs_nil : forall f, evs_ok max f [] f
| evs_cons : forall f e f' l f'', ev_ok max f e f' -> evs_ok max f' l f'' -> evs_ok max f (e :: l) f''.
