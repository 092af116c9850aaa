(** The first argument of a clause, for the indexing.  /repo/src/Pl2Wam/first_arg.pl:40-87, called by pl2wam.pl:147 on the
    code of the clause after the register allocation.

    The keys of get_atom, get_nil and get_integer are constants; [dot]/2 is get_list.  An instruction which is [other] is a
    cut or a soft cut of a permanent variable when [cut_y] says so. *)
Require Import List Bool Arith.
Require Import Verif.RegAlloc_Model Verif.Clause_Model.
Import ListNotations.

Inductive fclass : Type := FV | FConst (c : const) | FList | FStruct (f n : nat).
Section First.
Variable cut_y : info -> bool.
(** first_arg.pl:77-87; no indexing on floats *)
Definition defines_first_arg (i : inst) : option fclass :=
  match i with
  | get_arg (i_get_const (Cflt _)) (A 0) => None
  | get_arg (i_get_const a) (A 0) => Some (FConst a)
  | get_arg (i_get_structure f n) (A 0) => Some (if (f =? dot) && (n =? 2) then FList else FStruct f n)
  | _ => None
  end.
(** first_arg.pl:65-72 *)
Fixpoint assign_x0 (l : list code) : bool :=
  match l with
  | [] => false
  | w x :: l => reg_eqb x (A 0) || assign_x0 l
  | c x y :: l => (negb (reg_eqb x y) && reg_eqb y (A 0)) || assign_x0 l
  | r _ :: l => assign_x0 l
  end.
(** first_arg.pl:51-62 *)
Definition stopping_inst (i : inst) : bool :=
  match i with
  | call _ _ | cut_x _ _ => true
  | other k => cut_y k
  | _ => assign_x0 (codification i)
  end.
(** first_arg.pl:39-46 *)
Fixpoint find_first_arg (l : list inst) : fclass :=
  match l with
  | [] => FV
  | i :: l =>
    match defines_first_arg i with
    | Some a => a
    | None => if stopping_inst i then FV else find_first_arg l
    end
  end.
End First.

(** * Execution of the code of a clause
    [V]: the words; [W]: the rest of the machine; an instruction goes on, fails or raises an error.  What has happened
    before a failure remains in the [W] of [Failed], except what backtracking undoes. *)
Section Run.
Variables V W E : Type.
Inductive res : Type := Next (m : reg -> V) (s : W) | Failed (s : W) | Raised (e : E).
Variable step : inst -> (reg -> V) -> W -> res.
Fixpoint run (l : list inst) (m : reg -> V) (s : W) : res :=
  match l with
  | [] => Next m s
  | i :: l => match step i m s with Next m s => run l m s | x => x end
  end.
End Run.
Arguments Next {V W E}. Arguments Failed {V W E}. Arguments Raised {V W E}. Arguments run {V W E}.
