(** Labeling: /repo/src/BipsFD/fd_values_c.c (choice of a value, choice of a variable).

    A domain is the increasing list of its values (C27).  Telling a restriction runs the propagation (C30), which is a parameter:
    [prune].  Backtracking: the answers are a list, those of the alternative after those of the first branch, the alternative
    being run in the state at the creation of the choice point (C15, C31).  Left out: domains with extra_cstr, the count of backtracks. *)
Require Import ZArith List Bool.
Import ListNotations.
Open Scope Z_scope.

(** fd_values_c.c:55-63; /repo/src/EngineFD/fd_hook_range.h:44 *)
Definition METHOD_MIN := 0. Definition METHOD_MAX := 1. Definition METHOD_RANDOM_V := 2. Definition METHOD_MIDDLE := 3.
Definition METHOD_BISECT := 4. Definition METHOD_LIMITS_MIN := 5. Definition METHOD_LIMITS_MAX := 6.
Definition INTERVAL_MAX_INTEGER := 2 ^ 28 - 1.

Definition dom : Type := list Z.
(** Pl_Range_Ith_Elem: -1 when there is no such element *)
Definition Ith_Elem (D : dom) (n : nat) : Z := match n with O => -1 | S k => nth k D (-1) end.
Definition Min (D : dom) : Z := hd 0 D.
Definition Max (D : dom) : Z := last D 0.

Section Indomain.
(** the domain of the variable after a propagation that starts with its domain set; None: failure *)
Variable prune : dom -> option dom.
(** Pl_Random_Integer(nb_elem); the domain of a variable is another one at each call *)
Variable random : dom -> nat.

(** fd_values_c.c:296-322 *)
Definition Select_Value (m : Z) (D : dom) : Z :=
  if (m =? METHOD_MIN) || (m =? METHOD_LIMITS_MIN) then Min D
  else if (m =? METHOD_MAX) || (m =? METHOD_LIMITS_MAX) then Max D
  else if (m =? METHOD_BISECT) || (m =? METHOD_MIDDLE) then Ith_Elem D (Nat.div (length D) 2)
  else if m =? METHOD_RANDOM_V then Ith_Elem D (random D + 1)
  else 0.
(** Pl_Fd_In_Interval, Pl_Fd_Remove_Value (/repo/src/EngineFD/fd_inst.c:1461-1538) *)
Definition tell (f : Z -> bool) (D : dom) : option dom := match filter f D with [] => None | D' => prune D' end.
(** Pl_Fd_Assign_Value_Fast: the answers *)
Definition assign (v : Z) : list Z := match prune [v] with Some _ => [v] | None => [] end.

(** fd_values_c.c:331-368, 377-440; None: no fuel *)
Fixpoint Indomain_2 (fuel : nat) (m : Z) (D : dom) {struct fuel} : option (list Z) :=
  match fuel with
  | O => None
  | S fuel =>
    match D with
    | [v] => Some [v]                                   (* tag_mask == TAG_INT_MASK *)
    | _ =>
      let value := Select_Value m D in
      let first :=
        if m =? METHOD_BISECT then
          match tell (fun z => (0 <=? z) && (z <=? value)) D with None => Some [] | Some D' => Indomain_2 fuel m D' end
        else Some (assign value) in
      match first, Indomain_Alt fuel m value D with Some a, Some b => Some (a ++ b) | _, _ => None end
    end
  end
with Indomain_Alt (fuel : nat) (m value : Z) (D : dom) {struct fuel} : option (list Z) :=
  match fuel with
  | O => None
  | S fuel =>
    if m =? METHOD_BISECT then
      match tell (fun z => (value + 1 <=? z) && (z <=? INTERVAL_MAX_INTEGER)) D with None => Some [] | Some D' => Indomain_2 fuel m D' end
    else
      let m := if m =? METHOD_LIMITS_MIN then METHOD_LIMITS_MAX else if m =? METHOD_LIMITS_MAX then METHOD_LIMITS_MIN else m in
      match tell (fun z => negb (z =? value)) D with
      | None => Some []
      | Some [w] => Some [w]
      | Some D' =>
        let value := Select_Value m D' in
        match Indomain_Alt fuel m value D' with Some b => Some (assign value ++ b) | None => None end
      end
  end.
End Indomain.

(** ** The choice of a variable *)
(** what the comparisons read: Nb_Elem, Nb_Cstr, Min, Max, Pl_Range_Next_After(Min) - Min *)
Record info : Type := Info { ground : bool; Nb_Elem : Z; Nb_Cstr : Z; min_ : Z; max_ : Z; diff : Z }.
(** fd_values_c.c:671-750 *)
Definition Cmp_First_Fail (l n : info) : bool := Nb_Elem n <? Nb_Elem l.
Definition Cmp_Most_Constrained (l n : info) : bool := (Nb_Elem n <? Nb_Elem l) || ((Nb_Elem n =? Nb_Elem l) && (Nb_Cstr l <? Nb_Cstr n)).
Definition Cmp_Smallest (l n : info) : bool := (min_ n <? min_ l) || ((min_ n =? min_ l) && (Nb_Cstr l <? Nb_Cstr n)).
Definition Cmp_Largest (l n : info) : bool := (max_ l <? max_ n) || ((max_ n =? max_ l) && (Nb_Cstr l <? Nb_Cstr n)).
Definition Cmp_Max_Regret (l n : info) : bool := (diff l <? diff n) || ((diff n =? diff l) && (Nb_Cstr l <? Nb_Cstr n)).

Section Pick.
(** the FD variables, by number *)
Variable vars : nat -> info.
Variable cmp : info -> info -> bool.
Definition is_ground (v : nat) : bool := ground (vars v).
Fixpoint upd (l : list nat) (i v : nat) : list nat :=
  match l, i with [] , _ => [] | _ :: l, O => v :: l | x :: l, S i => x :: upd l i v end.
(** one turn of the loop fd_values_c.c:612-637: the array, res_elem, nb_ground *)
Definition scan_step (reorder : bool) (s : list nat * option nat * nat) (p : nat) : list nat * option nat * nat :=
  let '(a, res, g) := s in
  let v := nth p a 0%nat in
  if is_ground v then (a, res, S g)
  else match res with
       | None => (a, Some p, g)
       | Some r =>
         if cmp (vars (nth r a 0%nat)) (vars v) then
           if reorder then (upd (upd a p (nth r a 0%nat)) r v, res, g) else (a, Some p, g)
         else (a, res, g)
       end.
(** fd_values_c.c:535-664, without METHOD_RANDOM; the array and its size [length a], in return with the variable.
    The loop of lines 646-656 copies the variables that are not ground to the begin, in their order; what follows stays *)
Definition Pick_Var (reorder : bool) (a : list nat) : option (list nat * nat) :=
  let n := length a in
  let '(a, res, g) := fold_left (scan_step reorder) (seq 0 n) (a, None, 0%nat) in
  match res with
  | None => None
  | Some r =>
    if (Nat.ltb 50 n && Nat.leb (Nat.div n 2) g)%bool then
      let kept := filter (fun v => negb (is_ground v)) a in
      let mem := kept ++ skipn (n - g) a in              (* the cells *)
      Some (firstn (n - g) mem, nth r mem 0%nat)         (* array[-1] = n - nb_ground; fdv_adr = *res_elem *)
    else Some (a, nth r a 0%nat)
  end.
(** METHOD_RANDOM, fd_values_c.c:590-608: the first [n] cells are the array; in return the cells, array[-1] and the variable *)
Variable Random_Integer : nat -> nat.
Fixpoint Random_Pick (n : nat) (a : list nat) : option (list nat * nat * nat) :=
  match n with
  | O => None
  | S k =>
    let i := Random_Integer n in
    let v := nth i a 0%nat in
    let a := upd (upd a i (nth k a 0%nat)) k v in
    if is_ground v then Random_Pick k a else Some (a, k, v)
  end.
End Pick.
