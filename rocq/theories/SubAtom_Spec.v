(** What sub_atom/5 and atom_concat/3 should answer. *)
Require Import ZArith List Bool.
Require Import Verif.SubAtom_Model.
Import ListNotations.
Open Scope Z_scope.

(** the arguments can take these values: fixed ones have them, equal variables get equal values *)
Definition agree (p q : arg * val) : bool :=
  match fst p with
  | Val x => val_eqb x (snd p)
  | Var v => match fst q with Var w => if Nat.eqb v w then val_eqb (snd p) (snd q) else true | Val _ => true end
  end.
Definition consistent (l : list (arg * val)) : bool := forallb (fun p => forallb (agree p) l) l.
(** lo, lo + 1, ..., hi *)
Definition zrange (lo hi : Z) : list Z := map (fun i => lo + Z.of_nat i) (seq 0 (Z.to_nat (hi - lo + 1))).

(** the part of [l] bytes after the first [b] *)
Definition part (name : list Z) (b l : Z) : list Z := firstn (Z.to_nat l) (skipn (Z.to_nat b) name).
Definition try_sub (name : list Z) (g : bla) (b l : Z) : list (val * val * val * val) :=
  let a := Z.of_nat (length name) - b - l in
  if consistent [(before g, VInt b); (len g, VInt l); (after g, VInt a); (sub g, VAtm (part name b l))]
  then [(VInt b, VInt l, VInt a, VAtm (part name b l))] else [].
(** every part once, in the order of B then L *)
Definition sub_solutions (name : list Z) (g : bla) : list (val * val * val * val) :=
  let n := Z.of_nat (length name) in
  flat_map (fun b => flat_map (fun l => try_sub name g b l) (zrange 0 (n - b))) (zrange 0 n).

(** every split of the third atom, shorter first parts first; or the concatenation *)
Definition try_split (s1 s2 : list Z) (t1 t2 t3 : arg) : list (val * val * val) :=
  if consistent [(t1, VAtm s1); (t2, VAtm s2); (t3, VAtm (s1 ++ s2))] then [(VAtm s1, VAtm s2, VAtm (s1 ++ s2))] else [].
Definition concat_solutions (t1 t2 t3 : arg) : option (list (val * val * val)) :=
  match t1, t2, t3 with
  | _, _, Val (VAtm s3) => Some (flat_map (fun i => try_split (firstn i s3) (skipn i s3) t1 t2 t3) (seq 0 (S (length s3))))
  | Val (VAtm s1), Val (VAtm s2), _ => Some (try_split s1 s2 t1 t2 t3)
  | _, _, _ => None
  end.
