(** The symbolic FD constraints: /repo/src/BipsFD/fd_symbolic_c.c (fd_all_different, fd_element, fd_atmost, fd_atleast, fd_exactly).
    Ranges and vectors are those of FdRange_Model.  Left out: the errors for what is no list of FD variables, the last block of fd_element_var. *)
Require Import ZArith List Bool.
Require Import Verif.Heap_Model Verif.FdRange_Model.
Import ListNotations.
Open Scope Z_scope.

(** ** fd_all_different: lines 75-145; the constraints posted, or failure *)
Inductive item : Type := Int (z : Z) | Var (v : nat).
Inductive cst : Type := x_neq_c (x : nat) (c : Z) | x_neq_y (x y : nat).
Definition and_then (r1 r2 : option (list cst)) : option (list cst) :=
  match r1 with None => None | Some a => match r2 with None => None | Some b => Some (a ++ b) end end.
Fixpoint All_Different_Rec (l : list item) (x : item) : option (list cst) :=
  match l with
  | [] => Some []
  | w :: l =>
    let ret := match x with
               | Int c => match w with Int d => if negb (c =? d) then Some [] else None | Var y => Some [x_neq_c y c] end
               | Var v => match w with Int d => Some [x_neq_c v d] | Var y => Some [x_neq_y v y] end
               end in
    and_then ret (All_Different_Rec l x)
  end.
Fixpoint All_Different (l : list item) : option (list cst) :=
  match l with [] => Some [] | x :: l => and_then (All_Different_Rec l x) (All_Different l) end.

(** ** fd_element: lines 170-231.  The array: l[0] is the number of integers, l[1] ... the integers.
    The result is a range of the stack of which only vec is set (fd_to_c.h:502-506): [e], [p], [q] are its other fields. *)
Definition rd (l : list Z) (j : Z) : outcome Z :=
  if j =? 0 then Ret (Z.of_nat (length l))
  else if (1 <=? j) && (j <=? Z.of_nat (length l)) then Ret (nth (Z.to_nat (j - 1)) l 0) else UB.
Section E.
Variable sz : nat.
Definition from_to (a b : Z) : list Z := map (fun i => a + Z.of_nat i) (seq 0 (Z.to_nat (b - a + 1))).
Definition members (i : range) : list Z :=
  match vec i with
  | None => from_to (rmin i) (rmax i)
  | Some v => if rmin i =? rmax i then from_to (rmin i) (rmax i) else enum v
  end.
Fixpoint set_all (l : list Z) (js : list Z) (v : list Z) : outcome (list Z) :=
  match js with
  | [] => Ret v
  | j :: js => do x <- rd l j; do v <- Vector_Set_Value v (to_int x); set_all l js v
  end.
Definition Element_I_To_V (a : around) (e : bool) (p q : Z) (i : range) (l : list Z) : outcome range :=
  do v <- set_all l (members i) (Vector_Empty sz); Range_From_Vector a (Range e p q (Some v)).
Fixpoint set_those (v : range) (l : list Z) (js : list Z) (w : list Z) : outcome (list Z) :=
  match js with
  | [] => Ret w
  | j :: js =>
    do x <- rd l j; do b <- Range_Test_Value v (to_int x);
    do w <- (if b then Vector_Set_Value w j else Ret w); set_those v l js w
  end.
Definition Element_V_To_I (a : around) (e : bool) (p q : Z) (v : range) (l : list Z) : outcome range :=
  do w <- set_those v l (from_to 1 (Z.of_nat (length l))) (Vector_Empty sz); Range_From_Vector a (Range e p q (Some w)).
(** ** fd_element_var: lines 256-315; [l] are the domains of the variables; the vectors allocated have unknown contents [junk], [junk1] *)
Definition rdr (l : list range) (j : Z) : outcome range :=
  if (1 <=? j) && (j <=? Z.of_nat (length l)) then Ret (nth (Z.to_nat (j - 1)) l (Range false 0 0 None)) else UB.
Fixpoint union_all (junk junk1 : list Z) (l : list range) (js : list Z) (v : range) : outcome range :=
  match js with
  | [] => Ret v
  | j :: js => do d <- rdr l j; do v <- Range_Union sz junk junk1 v d; union_all junk junk1 l js v
  end.
Definition Element_Var_I_To_V (junk junk1 : list Z) (p q : Z) (i : range) (l : list range) : outcome range :=
  union_all junk junk1 l (members i) (Set_To_Empty (Range false p q None)).
Fixpoint meet_those (v : range) (l : list range) (js : list Z) (w : list Z) : outcome (list Z) :=
  match js with
  | [] => Ret w
  | j :: js =>
    do d <- rdr l j; do b <- Range_Test_Null_Inter d v;
    do w <- (if negb b then Vector_Set_Value w j else Ret w); meet_those v l js w
  end.
Definition Element_Var_V_To_I (a : around) (e : bool) (p q : Z) (v : range) (l : list range) : outcome range :=
  do w <- meet_those v l (from_to 1 (Z.of_nat (length l))) (Vector_Empty sz); Range_From_Vector a (Range e p q (Some w)).
End E.

(** ** fd_atmost, fd_atleast, fd_exactly: lines 342-481.  Of a variable: its value when it has one, and whether [v] is in its domain.
    The result is failure or what is told to the variables, in this order; the variables are read once (a tell of a variable that is
    twice in the list is seen as two tells). *)
Record cell : Type := Cell { known : option Z; has : bool }.
Inductive tell : Type := Not_Value (i : nat) | Value (i : nat).
Definition is_v (v : Z) (c : cell) : bool := match known c with Some z => z =? v | None => false end.
Definition ground (c : cell) : bool := match known c with Some _ => true | None => false end.
Definition count (f : cell -> bool) (l : list cell) : Z := Z.of_nat (length (filter f l)).
Fixpoint tell_all (mk : nat -> tell) (f : cell -> bool) (i : nat) (l : list cell) : list tell :=
  match l with [] => [] | c :: l => (if f c then [mk i] else []) ++ tell_all mk f (S i) l end.
Definition Atmost (n : Z) (l : list cell) (v : Z) : option (list tell) :=
  let nb := count (is_v v) l in
  if n <? nb then None
  else if nb =? n then Some (tell_all Not_Value (fun c => negb (ground c)) 0 l) else Some [].
Definition Atleast (n : Z) (l : list cell) (v : Z) : option (list tell) :=
  let nb := Z.of_nat (length l) - count (fun c => negb (has c)) l in
  if nb <? n then None
  else if nb =? n then Some (tell_all Value has 0 l) else Some [].
Definition Exactly (n : Z) (l : list cell) (v : Z) : option (list tell) :=
  let nb1 := count (is_v v) l in
  let nb2 := Z.of_nat (length l) - count (fun c => negb (is_v v c) && negb (has c)) l in
  if (n <? nb1) || (nb2 <? n) then None
  else if nb1 =? n then Some (tell_all Not_Value (fun c => negb (ground c)) 0 l)
  else if nb2 =? n then Some (tell_all Value has 0 l) else Some [].
