(** The primitive constraints of boolean FD constraints: /repo/src/BipsFD/fd_bool_fd.fd.

    A constraint is its "start X in r" blocks; one with wait_switch starts the blocks of a case when its condition is true (the
    first in the order of the file).  Blocks are run by the propagation (C30).  Simplifications: the places of the A frame are
    0 (X), 1 (Y), 2 (B); the int parameters are C (or L, U); int arithmetic is not bounded. *)
Require Import ZArith List Bool.
Import ListNotations.
Open Scope Z_scope.

(** /repo/src/EngineFD/fd_hook_range.h:44, fd_to_c.h:601 *)
Definition max_integer : Z := 2 ^ 28 - 1.
(** a domain: its values and its bounds *)
Record dom : Type := Dom { mem : Z -> bool; lo : Z; hi : Z }.
Definition env : Type := nat -> dom.
Definition X := 0%nat. Definition Y := 1%nat. Definition B := 2%nat.

(** terms *)
Inductive tm : Type := K (z : Z) | mn (v : nat) | mx (v : nat) | vl (v : nat) | Add (a b : tm) | Sub (a b : tm)
| And (a b : tm) | Or (a b : tm) | Xor (a b : tm).
(** fd_bool_fd.fd:40-45 *)
Definition Not (a : tm) : tm := Sub (K 1) a.
Definition Eqv (a b : tm) : tm := Not (Xor a b).
(** None: val of a variable that is not an integer; the function is left (fd_to_c.h:546-551) *)
Fixpoint eval (e : env) (t : tm) : option Z :=
  let two a b (f : Z -> Z -> Z) := match eval e a, eval e b with Some x, Some y => Some (f x y) | _, _ => None end in
  match t with
  | K z => Some z | mn v => Some (lo (e v)) | mx v => Some (hi (e v))
  | vl v => if lo (e v) =? hi (e v) then Some (lo (e v)) else None
  | Add a b => two a b Z.add | Sub a b => two a b Z.sub
  | And a b => two a b Z.land | Or a b => two a b Z.lor | Xor a b => two a b Z.lxor
  end.
(** a..b, {a}, ~{a}, ~(a..b), dom(v) + c *)
Inductive rg : Type := In_ (a b : tm) | Val_ (a : tm) | NotVal (a : tm) | NotIn (a b : tm) | Dom_ (v : nat) (c : Z).
(** the values left; None: no restriction *)
Definition allowed (e : env) (r : rg) : option (Z -> bool) :=
  let two a b f := match eval e a, eval e b with Some x, Some y => Some (f x y) | _, _ => None end in
  match r with
  | In_ a b => two a b (fun x y z => (x <=? z) && (z <=? y))
  | Val_ a => two a a (fun x _ z => z =? x)
  | NotVal a => two a a (fun x _ z => negb (z =? x))
  | NotIn a b => two a b (fun x y z => negb ((x <=? z) && (z <=? y)))
  | Dom_ v c => Some (fun z => mem (e v) (z - c))
  end.
Record block : Type := Block { target : nat; range : rg }.
Notation "'start' v 'IN' r" := (Block v r) (at level 60, v at level 0).
Definition accepts (e : env) (b : block) (z : Z) : bool := match allowed e (range b) with Some p => p z | None => true end.

(** conditions; Pl_Range_Test_Value, Pl_Range_Test_Null_Inter (of dom(v) + c and dom(w)), /repo/src/EngineFD/fd_range.c (C27) *)
Definition cond : Type := env -> bool.
Definition always : cond := fun _ => true.
Definition b_is_0 : cond := fun e => hi (e B) =? 0.
Definition b_is_1 : cond := fun e => lo (e B) =? 1.
Definition Test_Value (v : nat) (c : Z) : cond := fun e => mem (e v) c.
Definition Test_Null_Inter (v : nat) (c : Z) (w : nat) : cond := fun e =>
  forallb (fun i => let z := lo (e v) + Z.of_nat i in negb (mem (e v) z && mem (e w) (z + c))) (seq 0 (S (Z.to_nat (hi (e v) - lo (e v))))).
Definition prim : Type := list (cond * list block).
Definition plain (l : list block) : prim := [(always, l)].

(** fd_bool_fd.fd:115-120; B is the second variable of the frame *)
Definition p_not_x_eq_b := plain [start X IN Val_ (Not (vl B)); start B IN Val_ (Not (vl X))].
(** fd_bool_fd.fd:130-136 *)
Definition p_x_equiv_y_eq_b := plain [start B IN Val_ (Eqv (vl X) (vl Y)); start X IN Val_ (Eqv (vl Y) (vl B)); start Y IN Val_ (Eqv (vl X) (vl B))].
(** fd_bool_fd.fd:146-152 *)
Definition p_x_nequiv_y_eq_b := plain [start B IN Val_ (Xor (vl X) (vl Y)); start X IN Val_ (Xor (vl Y) (vl B)); start Y IN Val_ (Xor (vl X) (vl B))].
(** fd_bool_fd.fd:162-168 *)
Definition p_x_imply_y_eq_b := plain [
  start B IN In_ (Or (Not (mx X)) (mn Y)) (Or (Not (mn X)) (mx Y));
  start X IN In_ (Not (mx B)) (Or (Not (mn B)) (mx Y));
  start Y IN In_ (And (mn B) (mn X)) (mx B)].
(** fd_bool_fd.fd:173-178 *)
Definition p_x_imply_y_eq_1 := plain [start X IN In_ (K 0) (mx Y); start Y IN In_ (mn X) (K 1)].
(** fd_bool_fd.fd:188-194 *)
Definition p_x_nimply_y_eq_b := plain [
  start B IN In_ (And (mn X) (Not (mx Y))) (And (mx X) (Not (mn Y)));
  start X IN In_ (mn B) (Or (mx B) (mx Y));
  start Y IN In_ (And (Not (mx B)) (mn X)) (Not (mn B))].
(** fd_bool_fd.fd:204-210 *)
Definition p_x_and_y_eq_b := plain [
  start B IN In_ (And (mn X) (mn Y)) (And (mx X) (mx Y));
  start X IN In_ (mn B) (Or (mx B) (Not (mn Y)));
  start Y IN In_ (mn B) (Or (mx B) (Not (mn X)))].
(** fd_bool_fd.fd:215-220 *)
Definition p_x_and_y_eq_0 := plain [start X IN In_ (K 0) (Not (mn Y)); start Y IN In_ (K 0) (Not (mn X))].
(** fd_bool_fd.fd:230-236 *)
Definition p_x_nand_y_eq_b := plain [
  start B IN In_ (Or (Not (mx X)) (Not (mx Y))) (Or (Not (mn X)) (Not (mn Y)));
  start X IN In_ (Not (mx B)) (Or (Not (mn B)) (Not (mn Y)));
  start Y IN In_ (Not (mx B)) (Or (Not (mn B)) (Not (mn X)))].
(** fd_bool_fd.fd:246-252 *)
Definition p_x_or_y_eq_b := plain [
  start B IN In_ (Or (mn X) (mn Y)) (Or (mx X) (mx Y));
  start X IN In_ (And (mn B) (Not (mx Y))) (mx B);
  start Y IN In_ (And (mn B) (Not (mx X))) (mx B)].
(** fd_bool_fd.fd:257-262 *)
Definition p_x_or_y_eq_1 := plain [start X IN In_ (Not (mx Y)) (K 1); start Y IN In_ (Not (mx X)) (K 1)].
(** fd_bool_fd.fd:272-278 *)
Definition p_x_nor_y_eq_b := plain [
  start B IN In_ (And (Not (mx X)) (Not (mx Y))) (And (Not (mn X)) (Not (mn Y)));
  start X IN In_ (And (Not (mx B)) (Not (mx Y))) (Not (mn B));
  start Y IN In_ (And (Not (mx B)) (Not (mx X))) (Not (mn B))].

Section Truth.
Variable C : Z.
Let b0 : list block := [start B IN Val_ (K 0)].
Let b1 : list block := [start B IN Val_ (K 1)].
(** min(X) == C && max(X) == C and the like *)
Let x_is_c : cond := fun e => (lo (e X) =? C) && (hi (e X) =? C).
Let x_out_c : cond := fun e => (C <? lo (e X)) || (hi (e X) <? C).
Let is_ (c : Z) : cond := fun e => (lo (e X) + c =? hi (e Y)) && (hi (e X) + c =? lo (e Y)).
Let out_ (c : Z) : cond := fun e => (hi (e Y) <? lo (e X) + c) || (hi (e X) + c <? lo (e Y)).
(** X in ~{val(Y) - c}, Y in ~{val(X) + c}; X in min(Y) - c..max(Y) - c, Y in min(X) + c..max(X) + c *)
Let differ (c : Z) : list block := [start X IN NotVal (Sub (vl Y) (K c)); start Y IN NotVal (Add (vl X) (K c))].
Let equal (c : Z) : list block :=
  [start X IN In_ (Sub (mn Y) (K c)) (Sub (mx Y) (K c)); start Y IN In_ (Add (mn X) (K c)) (Add (mx X) (K c))].
Let equal_F (c : Z) : list block := [start X IN Dom_ Y (- c); start Y IN Dom_ X c].

(** fd_bool_fd.fd:294-309 *)
Definition p_truth_x_eq_c : prim := [(b_is_0, [start X IN NotVal (K C)]); (b_is_1, [start X IN Val_ (K C)]); (x_out_c, b0); (x_is_c, b1)].
(** fd_bool_fd.fd:314-331 *)
Definition p_truth_x_eq_y : prim := [(b_is_0, differ 0); (b_is_1, equal 0); (out_ 0, b0); (is_ 0, b1)].
(** fd_bool_fd.fd:336-353 *)
Definition p_truth_x_plus_c_eq_y : prim := [(b_is_0, differ C); (b_is_1, equal C); (out_ C, b0); (is_ C, b1)].
(** fd_bool_fd.fd:361-376 *)
Definition p_truth_x_eq_c_F : prim :=
  [(b_is_0, [start X IN NotVal (K C)]); (b_is_1, [start X IN Val_ (K C)]); (fun e => negb (Test_Value X C e), b0); (x_is_c, b1)].
(** fd_bool_fd.fd:381-398 *)
Definition p_truth_x_eq_y_F : prim := [(b_is_0, differ 0); (b_is_1, equal_F 0); (Test_Null_Inter X 0 Y, b0); (is_ 0, b1)].
(** fd_bool_fd.fd:402-419 *)
Definition p_truth_x_plus_c_eq_y_F : prim := [(b_is_0, differ C); (b_is_1, equal_F C); (Test_Null_Inter X C Y, b0); (is_ C, b1)].
(** fd_bool_fd.fd:435-450 *)
Definition p_truth_x_neq_c : prim := [(b_is_0, [start X IN Val_ (K C)]); (b_is_1, [start X IN NotVal (K C)]); (x_is_c, b0); (x_out_c, b1)].
(** fd_bool_fd.fd:455-472 *)
Definition p_truth_x_neq_y : prim := [(b_is_0, equal 0); (b_is_1, differ 0); (is_ 0, b0); (out_ 0, b1)].
(** fd_bool_fd.fd:477-494 *)
Definition p_truth_x_plus_c_neq_y : prim := [(b_is_0, equal C); (b_is_1, differ C); (is_ C, b0); (out_ C, b1)].
(** fd_bool_fd.fd:503-518 *)
Definition p_truth_x_neq_c_F : prim :=
  [(b_is_0, [start X IN Val_ (K C)]); (b_is_1, [start X IN NotVal (K C)]); (x_is_c, b0); (fun e => negb (Test_Value X C e), b1)].
(** fd_bool_fd.fd:523-540 *)
Definition p_truth_x_neq_y_F : prim := [(b_is_0, equal_F 0); (b_is_1, differ 0); (is_ 0, b0); (Test_Null_Inter X 0 Y, b1)].
(** fd_bool_fd.fd:544-561 *)
Definition p_truth_x_plus_c_neq_y_F : prim := [(b_is_0, equal_F C); (b_is_1, differ C); (is_ C, b0); (Test_Null_Inter X C Y, b1)].
(** fd_bool_fd.fd:578-595 *)
Definition p_truth_x_lt_y : prim :=
  [(b_is_0, [start X IN In_ (mn Y) (K max_integer); start Y IN In_ (K 0) (mx X)]);
   (b_is_1, [start X IN In_ (K 0) (Sub (mx Y) (K 1)); start Y IN In_ (Add (mn X) (K 1)) (K max_integer)]);
   (fun e => hi (e Y) <=? lo (e X), b0); (fun e => hi (e X) <? lo (e Y), b1)].
(** fd_bool_fd.fd:611-626 *)
Definition p_truth_x_lte_c : prim :=
  [(b_is_0, [start X IN In_ (Add (K C) (K 1)) (K max_integer)]); (b_is_1, [start X IN In_ (K 0) (K C)]);
   (fun e => C <? lo (e X), b0); (fun e => hi (e X) <=? C, b1)].
(** fd_bool_fd.fd:631-648 *)
Definition p_truth_x_lte_y : prim :=
  [(b_is_0, [start X IN In_ (Add (mn Y) (K 1)) (K max_integer); start Y IN In_ (K 0) (Sub (mx X) (K 1))]);
   (b_is_1, [start X IN In_ (K 0) (mx Y); start Y IN In_ (mn X) (K max_integer)]);
   (fun e => hi (e Y) <? lo (e X), b0); (fun e => hi (e X) <=? lo (e Y), b1)].
(** fd_bool_fd.fd:653-670 *)
Definition p_truth_x_plus_c_lte_y : prim :=
  [(b_is_0, [start X IN In_ (Add (Sub (mn Y) (K C)) (K 1)) (K max_integer); start Y IN In_ (K 0) (Sub (Add (mx X) (K C)) (K 1))]);
   (b_is_1, [start X IN In_ (K 0) (Sub (mx Y) (K C)); start Y IN In_ (Add (mn X) (K C)) (K max_integer)]);
   (fun e => hi (e Y) <? lo (e X) + C, b0); (fun e => hi (e X) + C <=? lo (e Y), b1)].
(** fd_bool_fd.fd:686-701 *)
Definition p_truth_x_gte_c : prim :=
  [(b_is_0, [start X IN In_ (K 0) (Sub (K C) (K 1))]); (b_is_1, [start X IN In_ (K C) (K max_integer)]);
   (fun e => hi (e X) <? C, b0); (fun e => C <=? lo (e X), b1)].
(** fd_bool_fd.fd:706-723 *)
Definition p_truth_x_plus_c_gte_y : prim :=
  [(b_is_0, [start X IN In_ (K 0) (Sub (Sub (mx Y) (K C)) (K 1)); start Y IN In_ (Add (Add (mn X) (K C)) (K 1)) (K max_integer)]);
   (b_is_1, [start X IN In_ (Sub (mn Y) (K C)) (K max_integer); start Y IN In_ (K 0) (Add (mx X) (K C))]);
   (fun e => hi (e X) + C <? lo (e Y), b0); (fun e => hi (e Y) <=? lo (e X) + C, b1)].
(** fd_bool_fd.fd:730-745 *)
Definition p_truth_x_in_l_u (L U : Z) : prim :=
  [(b_is_0, [start X IN NotIn (K L) (K U)]); (b_is_1, [start X IN In_ (K L) (K U)]);
   (fun e => (U <? lo (e X)) || (hi (e X) <? L), b0); (fun e => (L <=? lo (e X)) && (hi (e X) <=? U), b1)].
End Truth.
(** the case started: the first whose condition is true *)
Fixpoint select (e : env) (p : prim) : option (list block) :=
  match p with [] => None | (c, l) :: p => if c e then Some l else select e p end.
