(** The operator table and its enumeration: /repo/src/EnginePl/oper.c, /repo/src/BipsPl/oper_c.c.
    The priorities of an operator (prec, left, right) are one value. *)
Require Import ZArith List Bool.
Require Import Verif.Heap_Model Verif.Hash_Model.
Import ListNotations.
Open Scope Z_scope.

(** oper.h:56-58 *)
Definition PREFIX : Z := 0.
Definition POSTFIX : Z := 1.
Definition INFIX : Z := 2.
(** oper.h:47; atoms are >= 0, types 0..2 *)
Definition Make_Oper_Key (a t : Z) : Z := a * 4 + t.
(** [omask a t]: bit t of pl_atom_tbl[a].prop.op_mask (oper.h:63) *)
Record ostate := Ostate { om : hmem; ob : Z; omask : Z -> Z -> bool }.
Definition set_mask (f : Z -> Z -> bool) (a t : Z) (v : bool) : Z -> Z -> bool :=
  fun x y => if (x =? a) && (y =? t) then v else f x y.

(** oper.c:193-211; [a1], [a2]: what Calloc and Malloc return if called *)
Definition Create_Oper (fuel : nat) (s : ostate) (atom type v a1 a2 : Z) : outcome ostate :=
  do (m, b) <- Extend_If_Needed fuel (om s) (ob s) a1;
  do (m, _) <- Insert fuel m b (Make_Oper_Key atom type) v true a2;
  Ret (Ostate m b (set_mask (omask s) atom type true)).
(** oper.c:261-268 *)
Definition Delete_Oper (fuel : nat) (s : ostate) (atom type : Z) : outcome ostate :=
  do (m, _) <- Delete fuel (om s) (ob s) (Make_Oper_Key atom type);
  Ret (Ostate m (ob s) (set_mask (omask s) atom type false)).
(** oper.c:221-227 *)
Definition Lookup_Oper (fuel : nat) (s : ostate) (atom type : Z) : outcome Z :=
  if negb (omask s atom type) then Ret 0 else Find fuel (om s) (ob s) (Make_Oper_Key atom type).

(** the bits of op_mask as a list of types; first type found by the loop oper_c.c:236-238
    (PREFIX, then POSTFIX, else INFIX) *)
Definition first_type (mask : Z -> bool) : Z := if mask PREFIX then PREFIX else if mask POSTFIX then POSTFIX else INFIX.
Definition del_bit (mask : Z -> bool) (t : Z) : Z -> bool := fun x => if x =? t then false else mask x.
Definition mask0 (mask : Z -> bool) : bool := negb (mask PREFIX || mask POSTFIX || mask INFIX).

(** the data of the choice point of current_op/3: the remaining types of a given atom or
    the scan *)
Inductive calt := CAtom (atom : Z) (mask : Z -> bool) | CScan (sc : scan).
(** oper_c.c:190-271 (name known or not): the operator found (type, value), and what is saved.
    The last lines read *oper. *)
Definition read_oper (s : ostate) (p : Z) : outcome (Z * Z) :=
  do n <- rd_node (om s) p; Ret (nkey n, nval n).
Definition Current_Op (fuel : nat) (s : ostate) (name : option Z) : outcome (option (Z * Z * option calt)) :=
  match name with
  | Some atom =>
    let mask := omask s atom in
    if mask0 mask then Ret None
    else
      let i := first_type mask in
      let mask := del_bit mask i in
      do p <- Lookup_Oper fuel s atom i;
      do (k, v) <- read_oper s p;
      Ret (Some (k, v, if mask0 mask then None else Some (CAtom atom mask)))
  | None =>
    do (p, sc) <- First (om s) (ob s);
    if p =? 0 then Ret None
    else do (k, v) <- read_oper s p; Ret (Some (k, v, Some (CScan sc)))
  end.
(** oper_c.c:281-337: resuming the choice point *)
Definition Current_Op_Alt (fuel : nat) (s : ostate) (c : calt) : outcome (option (Z * Z * option calt)) :=
  match c with
  | CAtom atom mask =>
    do p <- Lookup_Oper fuel s atom (first_type mask);
    do (k, v) <- read_oper s p;
    Ret (Some (k, v, None))
  | CScan sc =>
    do (p, sc) <- Next (om s) sc;
    if p =? 0 then Ret None
    else do (k, v) <- read_oper s p; Ret (Some (k, v, Some (CScan sc)))
  end.

(** op/3 (oper_c.c:114-180 after its checks): priority 0 deletes *)
Inductive oop := OAdd (atom type v a1 a2 : Z) | ODel (atom type : Z).
Definition op3 (fuel : nat) (s : ostate) (o : oop) : outcome ostate :=
  match o with
  | OAdd atom type v a1 a2 => Create_Oper fuel s atom type v a1 a2
  | ODel atom type => Delete_Oper fuel s atom type
  end.
Fixpoint op3s (fuel : nat) (s : ostate) (os : list oop) : outcome ostate :=
  match os with [] => Ret s | o :: os => do s <- op3 fuel s o; op3s fuel s os end.
(** the table created by Pl_Init_Oper (oper.c:93) *)
Definition START_OPER_TBL_SIZE : Z := 1024.
Definition Init_Oper (m : hmem) (size a : Z) : outcome ostate :=
  do (m, b) <- Alloc_Table m size a; Ret (Ostate m b (fun _ _ => false)).
