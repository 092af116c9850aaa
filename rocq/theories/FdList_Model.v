(** A list of integers as a range: Pl_Fd_Prolog_To_Range, Pl_Fd_List_Int_To_Range (/repo/src/EngineFD/fd_inst.c:477-490, 521-569),
    on the ranges and vectors of FdRange_Model.  Left out: the errors for what is no list of integers.
    The range is allocated on the stack and only its field vec is set: [p] and [q] are the contents of min and max. *)
Require Import ZArith List Bool.
Require Import Verif.Heap_Model Verif.FdRange_Model Verif.FdIn_Model.
Import ListNotations.
Open Scope Z_scope.

Section L.
Variable sz : nat.
Definition unsigned (x : Z) : Z := x mod 2 ^ 32.
(** lines 537-563: extra_cstr, the vector, n *)
Fixpoint put (l : list Z) (e : bool) (v : list Z) (n : nat) : outcome (bool * list Z * nat) :=
  match l with
  | [] => Ret (e, v, n)
  | x :: l =>
    let val := Prolog_To_Value x in
    if unsigned (vmax sz) <? unsigned val then put l true v n
    else do v <- Vector_Set_Value v val; put l e v (S n)
  end.
Definition List_Int_To_Range (a : around) (p q : Z) (l : list Z) : outcome range :=
  do r <- put l false (Vector_Empty sz) 0;
  let '(e, v, n) := r in
  if Nat.eqb n 0 then Ret (Set_To_Empty (Range e p q (Some v))) else Range_From_Vector a (Range e p q (Some v)).
End L.
