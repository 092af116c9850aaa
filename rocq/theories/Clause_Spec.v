(** C60: the meaning of a clause, and of the instructions of the WAM.

    The values [V] are any set with constants and functions ([cst], [fn]).  A clause relates the
    values of the arguments to the values of the arguments of its goals: there is a value for each
    variable such that the arguments of the head are the values of its terms.
    An instruction is a constraint on the values: a structure is taken apart (or built) from the
    values of its arguments, which are then taken one by one by the unify instructions. *)
Require Import List Bool Arith.
Require Import Verif.RegAlloc_Model Verif.RegAlloc_Spec Verif.Clause_Model.
Import ListNotations.

Section Meaning.
Variable V : Type.
Variable cst : const -> V.
Variable fn : nat -> list V -> V.

(** * The clause *)
Fixpoint eval (e : nat -> V) (t : tm) : V :=
  match t with Tv n => e n | Tc k => cst k | Tf f l => fn f (map (eval e) l) end.
(** a goal with the values of its arguments *)
Definition done_goal : Type := (bool * nat * list V)%type.
Definition goal_value (e : nat -> V) (g : goal) : done_goal := (g_inl g, g_pred g, map (eval e) (g_args g)).
Definition clause_means (cl : clause) (args : list V) (goals : list done_goal) : Prop :=
  exists e, args = map (eval e) (c_head cl) /\ goals = map (goal_value e) (c_body cl).

(** * The instructions *)
(** the environment: none, [n] permanent variables, or the clause is left *)
Inductive env : Type := NoEnv | Env (n : nat) (f : nat -> V) | Left.
(** the environment, the arguments of the structure not taken yet, the goals done *)
Record mach : Type := Mach { me : env; ms : list V; mg : list done_goal }.
Definition get_y (q : mach) (y : nat) : option V := match me q with Env n f => if y <? n then Some (f y) else None | _ => None end.
Definition set_y (q : mach) (y : nat) (v : V) : mach :=
  match me q with Env n f => Mach (Env n (fun z => if z =? y then v else f z)) (ms q) (mg q) | _ => q end.
Definition set_s (q : mach) (l : list V) : mach := Mach (me q) l (mg q).
(** [rd]: the values of the registers read; [v]: the value written *)
Definition accept (k : label) (rd : list V) (v : V) (q q' : mach) : Prop :=
  me q <> Left /\
  match k, rd with
  | LGetValue, [x; a] => ms q = [] /\ x = a /\ q' = q
  | LGet (i_get_variable y), [x] => ms q = [] /\ get_y q y <> None /\ q' = set_y q y x
  | LGet (i_get_value y), [x] => ms q = [] /\ get_y q y = Some x /\ q' = q
  | LGet (i_get_const b), [x] => ms q = [] /\ x = cst b /\ q' = q
  | LGet (i_get_structure f n), [x] => ms q = [] /\ exists l, length l = n /\ x = fn f l /\ q' = set_s q l
  | LNewVar, [] => ms q = [] /\ q' = q
  | LPut (i_put_variable y), [] => ms q = [] /\ get_y q y <> None /\ q' = set_y q y v
  | LPut (i_put_value y), [] | LPut (i_put_unsafe_value y), [] => ms q = [] /\ get_y q y = Some v /\ q' = q
  | LPut (i_put_const b), [] => ms q = [] /\ v = cst b /\ q' = q
  | LPut (i_put_structure f n), [] => ms q = [] /\ exists l, length l = n /\ v = fn f l /\ q' = set_s q l
  | LMeta (i_module m), [x] => ms q = [] /\ v = fn mt [cst (Catm m); x] /\ q' = q
  | LUnifyVar, [] => exists l, ms q = v :: l /\ q' = set_s q l
  | LUnify _, [x] => exists l, ms q = x :: l /\ q' = set_s q l
  | LOther (i_unify_variable y), [] => exists u l, ms q = u :: l /\ get_y q y <> None /\ q' = set_s (set_y q y u) l
  | LOther (i_unify_value_y y), [] | LOther (i_unify_local_value_y y), [] => exists u l, ms q = u :: l /\ get_y q y = Some u /\ q' = set_s q l
  | LOther (i_unify_void n), [] => exists l1 l2, ms q = l1 ++ l2 /\ length l1 = n /\ q' = set_s q l2
  | LOther (i_unify_const b), [] => exists l, ms q = cst b :: l /\ q' = set_s q l
  (* only the last argument *)
  | LOther (i_unify_structure f n), [] => exists l, ms q = [fn f l] /\ length l = n /\ q' = set_s q l
  (* a call needs an environment to come back; execute and proceed leave the clause, without one *)
  | LCall (i_call p) _, l => ms q = [] /\ me q <> NoEnv /\ q' = Mach (me q) [] (mg q ++ [(false, p, l)])
  | LCall (i_execute p) _, l => ms q = [] /\ me q = NoEnv /\ q' = Mach Left [] (mg q ++ [(false, p, l)])
  | LOther i_proceed, [] => ms q = [] /\ me q = NoEnv /\ q' = Mach Left [] (mg q)
  | LCallC (i_call_c p) false false _, l => ms q = [] /\ q' = Mach (me q) [] (mg q ++ [(true, p, l)])
  (* nothing is known of the permanent variables of a new environment *)
  | LOther (i_allocate n), [] => ms q = [] /\ me q = NoEnv /\ exists f, q' = Mach (Env n f) [] (mg q)
  | LOther i_deallocate, [] => ms q = [] /\ me q <> NoEnv /\ q' = Mach NoEnv [] (mg q)
  | _, _ => False
  end.
(** the events of a run (last first), each with its result, are accepted *)
Fixpoint accepted (result : list (event V) -> nat -> V) (tr : list (event V)) (q q' : mach) : Prop :=
  match tr with
  | [] => q' = q
  | e :: tr0 => exists q1, accepted result tr0 q q1 /\ accept (fst e) (snd e) (result tr 0) q1 q'
  end.
(** the code relates the registers at its start to the goals it calls: there is a run which leaves the clause *)
Definition code_means (l : list inst) (m : reg -> V) (goals : list done_goal) : Prop :=
  exists result rest, accepted result (snd (run V result rest l (m, []))) (Mach NoEnv [] []) (Mach Left [] goals).
End Meaning.
