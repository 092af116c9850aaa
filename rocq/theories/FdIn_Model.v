(** fd_domain/3 on one variable and fd_reified_in/4: /repo/src/BipsFD/fd_values_c.c:185-240, /repo/src/BipsFD/fd_bool_c.c:1564-1660.

    A constraint that is posted is added to a list; what it does is C28, C30, C70.  Simplification: l_word and u_word are integers
    (the other errors of Pl_Rd_Integer_Check are raised first). *)
Require Import ZArith List Bool.
Import ListNotations.
Open Scope Z_scope.

(** /repo/src/EngineFD/fd_hook_range.h:44 *)
Definition INTERVAL_MAX_INTEGER : Z := 2 ^ 28 - 1.
(** a dereferenced word; [FDV v l u]: a variable with the bounds l and u *)
Inductive word : Type := REF (v : nat) | FDV (v : nat) (l u : Z) | INT (n : Z) | OTHER.
Inductive cst : Type :=
| Get_Integer (n : Z) (w : word)                  (* Pl_Get_Integer *)
| In_Interval (w : word) (l u : Z)                (* Pl_Fd_In_Interval, Pl_Fd_New_Variable_Interval *)
| not_domain (w : word) (l u : Z)                 (* pl_fd_not_domain, fd_values_fd.fd:45-49 *)
| New_Variable (w : word)                         (* Pl_Fd_New_Variable *)
| Bool_Var (w : word)                             (* Pl_Fd_Check_For_Bool_Var *)
| truth_x_in_l_u (x : word) (l u : Z) (b : word). (* pl_truth_x_in_l_u *)
Inductive res : Type := Err_Type_Fd | Fails | Posts (l : list cst).

(** /repo/src/EngineFD/fd_inst.c:499-512 *)
Definition Prolog_To_Value (v : Z) : Z :=
  let v := if v <? - INTERVAL_MAX_INTEGER then - INTERVAL_MAX_INTEGER else v in
  if INTERVAL_MAX_INTEGER <? v then INTERVAL_MAX_INTEGER else v.
(** fd_values_c.c:185-217 *)
Definition Domain_Interval (x : word) (min max : Z) : res :=
  match x with
  | REF _ => if max <? min then Fails else if min =? max then Posts [Get_Integer min x] else Posts [In_Interval x min max]
  | INT v => if (min <=? v) && (v <=? max) then Posts [] else Fails
  | FDV _ _ _ => Posts [In_Interval x min max]
  | OTHER => Err_Type_Fd
  end.
(** fd_values_c.c:228-240 *)
Definition Domain_Var_3 (x : word) (l u : Z) : res :=
  let min := Prolog_To_Value l in let min := if min <? 0 then 0 else min in
  let max := Prolog_To_Value u in Domain_Interval x min max.
(** the bounds of the domain; those of Pl_Fd_New_Variable for a REF *)
Definition bounds (x : word) : Z * Z := match x with FDV _ l u => (l, u) | _ => (0, INTERVAL_MAX_INTEGER) end.
(** fd_bool_c.c:1564-1660 *)
Definition Reified_In (x : word) (l u : Z) (b : word) : res :=
  let min := Prolog_To_Value l in let min := if min <? 0 then 0 else min in
  let max := Prolog_To_Value u in
  match x, b with
  | OTHER, _ | _, OTHER => Err_Type_Fd
  | INT n, _ => Posts [Get_Integer (Z.b2z ((min <=? n) && (n <=? max))) b]
  | _, INT n =>
    if n =? 0 then Posts [New_Variable x; not_domain x (Prolog_To_Value l) (Prolog_To_Value u)]
    else if n =? 1 then Domain_Interval x min max else Fails
  | _, _ =>
    let fresh := match x with REF _ => [New_Variable x] | _ => [] end in
    let '(x_min, x_max) := bounds x in
    if (min <=? x_min) && (x_max <=? max) then Posts (fresh ++ [Get_Integer 1 b])
    else if (max <? min) || (x_max <? min) || (max <? x_min) then Posts (fresh ++ [Get_Integer 0 b])
    else Posts (fresh ++ [Bool_Var b; truth_x_in_l_u x (Prolog_To_Value l) (Prolog_To_Value u) b])
  end.
