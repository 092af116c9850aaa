(** Labeling of several variables: '$fd_labeling_std' (/repo/src/BipsFD/fd_values.pl:206-210) with Pl_Indomain_2 as in Label_Model, now in
    the store of all variables: an answer is a store.  The store and the propagation are parameters. *)
Require Import ZArith List Bool.
Require Import Verif.Label_Model.
Import ListNotations.
Open Scope Z_scope.

Section S.
Variable store : Type.
(** the domain of a variable; Pl_Fd_In_Interval, Pl_Fd_Remove_Value, Pl_Fd_Assign_Value_Fast: restrict a variable and propagate *)
Variable D : store -> nat -> dom.
Variable tell : store -> nat -> (Z -> bool) -> option store.
Variable random : store -> nat -> nat.
Definition select (m : Z) (s : store) (v : nat) : Z := Select_Value (fun _ => random s v) m (D s v).
Definition told (s : store) (v : nat) (f : Z -> bool) : list store := match tell s v f with Some s' => [s'] | None => [] end.

(** fd_values_c.c:331-368, 377-440 *)
Fixpoint Indomain (fuel : nat) (m : Z) (v : nat) (s : store) {struct fuel} : option (list store) :=
  match fuel with
  | O => None
  | S fuel =>
    match D s v with
    | [_] => Some [s]
    | _ =>
      let value := select m s v in
      let first :=
        if m =? METHOD_BISECT then
          match tell s v (fun z => (0 <=? z) && (z <=? value)) with None => Some [] | Some s' => Indomain fuel m v s' end
        else Some (told s v (fun z => z =? value)) in
      match first, Alt fuel m v value s with Some a, Some b => Some (a ++ b) | _, _ => None end
    end
  end
with Alt (fuel : nat) (m : Z) (v : nat) (value : Z) (s : store) {struct fuel} : option (list store) :=
  match fuel with
  | O => None
  | S fuel =>
    if m =? METHOD_BISECT then
      match tell s v (fun z => (value + 1 <=? z) && (z <=? INTERVAL_MAX_INTEGER)) with None => Some [] | Some s' => Indomain fuel m v s' end
    else
      let m := if m =? METHOD_LIMITS_MIN then METHOD_LIMITS_MAX else if m =? METHOD_LIMITS_MAX then METHOD_LIMITS_MIN else m in
      match tell s v (fun z => negb (z =? value)) with
      | None => Some []
      | Some s' =>
        match D s' v with
        | [_] => Some [s']
        | _ =>
          let value := select m s' v in
          match Alt fuel m v value s' with Some b => Some (told s' v (fun z => z =? value) ++ b) | None => None end
        end
      end
  end.
(** the answers of a goal for each of the answers before it *)
Fixpoint each (f : store -> option (list store)) (l : list store) : option (list store) :=
  match l with [] => Some [] | s :: l => match f s, each f l with Some a, Some b => Some (a ++ b) | _, _ => None end end.
Fixpoint labeling_std (fuel : nat) (m : Z) (vs : list nat) (s : store) : option (list store) :=
  match vs with
  | [] => Some [s]
  | v :: vs => match Indomain fuel m v s with Some l => each (labeling_std fuel m vs) l | None => None end
  end.
(** '$fd_labeling_mth' (fd_values.pl:215-222), where [pick] is Pl_Fd_Sel_Array_Pick_Var_4: it fails when all variables are known.
    The array is given on; after backtracking its cells can be in another order (the exchange is not trailed), so [pick] may depend on
    the store. *)
Variable pick : store -> list nat -> option (list nat * nat).
Fixpoint labeling_mth (n fuel : nat) (m : Z) (a : list nat) (s : store) : option (list store) :=
  match pick s a with
  | None => Some [s]
  | Some (a', v) =>
    match n with
    | O => None
    | S n => match Indomain fuel m v s with Some l => each (labeling_mth n fuel m a') l | None => None end
    end
  end.
End S.
