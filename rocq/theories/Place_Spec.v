(** C61: where the words of the clause point to.

    A word is a constant or refers to the heap ([Heap]), refers to a variable in a local stack frame
    below the one of the clause ([Outer]), or to a permanent variable of the clause ([Cur]).
    The environment of the clause goes away with deallocate; the words of the heap stay.  So no word of the heap may
    refer to the local stack, and no word may refer to the environment after it is gone.
    /repo/src/EnginePl/wam_inst.c:436-472 (put), 618-690 (meta term), 712-850 (unify), 1025-1064 (allocate, deallocate). *)
Require Import List Bool Arith.
Require Import Verif.RegAlloc_Model Verif.RegAlloc_Spec Verif.Clause_Model.
Import ListNotations.

Inductive place : Type := Heap | Outer | Cur.
(** the environment: its size, and the words of its variables ([None]: never written) *)
Definition penv : Type := option (nat * (nat -> option place)).
Definition in_env (q : penv) (y : nat) : Prop := match q with Some (n, _) => y < n | None => False end.
Definition py (q : penv) (y : nat) : option place := match q with Some (n, f) => if y <? n then f y else None | None => None end.
Definition set_py (q : penv) (y : nat) (p : place) : penv :=
  match q with Some (n, f) => Some (n, fun z => if z =? y then Some p else f z) | None => None end.

(** what an instruction does with the environment; [rd]: where the registers it reads point to;
    [v]: where the register it writes points to *)
Definition change (k : label) (rd : list place) (v : place) (q q' : penv) : Prop :=
  match k with
  | LGet (i_get_variable y) => exists x, rd = [x] /\ q' = set_py q y x
  | LPut (i_put_variable y) => v = Cur /\ q' = set_py q y Cur              (* a self reference *)
  | LPut (i_put_value y) => py q y = Some v /\ q' = q
  | LPut (i_put_unsafe_value y) => v <> Cur /\ q' = q                      (* moved to the heap when it is in the environment *)
  | LPut _ | LNewVar | LMeta _ | LUnifyVar => v = Heap /\ q' = q
  | LOther (i_unify_variable y) => q' = set_py q y Heap
  | LOther (i_allocate n) => q' = Some (n, fun _ => None)
  | LOther i_deallocate => q' = None
  | LOther (i_other _) => False                                           (* fail *)
  | _ => q' = q
  end.
(** the variables of the environment which are not bound may be bound *)
Definition bindings (q q' : penv) : Prop :=
  match q, q' with
  | Some (n, f), Some (n', f') => n' = n /\ forall y, f' y = f y \/ (f y = Some Cur /\ f' y <> None)
  | None, None => True
  | _, _ => False
  end.
Definition follow (k : label) (rd : list place) (v : place) (q q' : penv) : Prop := exists q1, change k rd v q q1 /\ bindings q1 q'.
Fixpoint follows (result : list (event place) -> nat -> place) (tr : list (event place)) (q : penv) : Prop :=
  match tr with
  | [] => q = None
  | e :: tr0 => exists q1, follows result tr0 q1 /\ follow (fst e) (snd e) (result tr 0) q1 q
  end.

(** what must not happen *)
Definition danger (k : label) (rd : list place) (q : penv) : Prop :=
  (* a word refers to an environment which is gone *)
  (q = None /\ In Cur rd) \/
  match k with
  (* a word of the heap refers to the local stack *)
  | LUnify i_unify_value | LMeta _ => exists x, In x rd /\ x <> Heap
  | LOther (i_unify_value_y y) => py q y <> Some Heap
  (* a variable of the environment is read before it is written *)
  | LGet (i_get_value y) | LPut (i_put_value y) | LPut (i_put_unsafe_value y) | LOther (i_unify_local_value_y y) => py q y = None
  (* something else than a variable of the environment is written *)
  | LGet (i_get_variable y) | LPut (i_put_variable y) | LOther (i_unify_variable y) => ~ in_env q y
  (* no environment to come back *)
  | LCall (i_call _) _ => q = None
  (* the environment is not the one of the clause *)
  | LOther i_deallocate => q = None
  | LOther (i_allocate _) | LCall (i_execute _) _ | LOther i_proceed => q <> None
  | _ => False
  end.
(** nothing dangerous happens in a run *)
Definition safe (result : list (event place) -> nat -> place) (tr : list (event place)) : Prop :=
  forall l1 e l2 q, tr = l1 ++ e :: l2 -> follows result l2 q -> ~ danger (fst e) (snd e) q.
(** the registers at the start: the arguments do not refer to the environment, which does not exist *)
Definition args_outside (n : nat) (m : reg -> place) : Prop := forall a, a < n -> m (A a) <> Cur.
Definition safe_code (n : nat) (l : list inst) : Prop :=
  forall result rest m, args_outside n m -> safe result (snd (run place result rest l (m, []))).

(** no '$mt'(M, V) where M is an atom and V a variable, in the body *)
Fixpoint no_meta_var (t : tm) : bool :=
  match t with
  | Tf f l => negb ((f =? mt) && match l with [Tc (Catm _); Tv _] => true | _ => false end) && forallb no_meta_var l
  | _ => true
  end.
Definition body_no_meta_var (cl : clause) : bool := forallb (fun g => forallb no_meta_var (g_args g)) (c_body cl).
