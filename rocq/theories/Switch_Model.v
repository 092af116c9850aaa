(** Dispatching on the first argument.  Atoms and structures: hash tables of
    /repo/src/EnginePl/wam_inst.c.  Integers: a binary search emitted by the assembler
    generator (/repo/src/Wam2Ma/wam2ma.c, /repo/src/Ma2Asm/ma2asm.c).  A code address is an
    integer, 0 is NULL. *)
Require Import ZArith List Bool Permutation.
Require Import Verif.Heap_Model.
Import ListNotations.
Open Scope Z_scope.

(** ** Hash tables *)
(** wam_inst.h:231-238; the table is an array *)
Record swt := Swt { skey : Z; scode : Z }.
Definition swt_tbl := Z -> swt.
Definition supd (t : swt_tbl) (i : Z) (x : swt) : swt_tbl := fun j => if j =? i then x else t j.
(** wam_inst.c:101-111: Calloc of size + 1 cells *)
Definition Create_Swt_Table : swt_tbl := fun _ => Swt 0 0.
(** wam_inst.c:190-195 the loop; [size] is already incremented.  More turns than cells: it
    never ends *)
Fixpoint locate_swt_loop (n : nat) (t : swt_tbl) (size key i : Z) : outcome Z :=
  match n with
  | O => NoFuel
  | S n =>
    if (0 <=? i) && (i <? size) then
      if negb (scode (t i) =? 0) && negb (skey (t i) =? key) then
        let i := i + 1 in locate_swt_loop n t size key (if i =? size then 0 else i)
      else Ret i
    else UB
  end.
(** wam_inst.c:172-198; % is the remainder of C *)
Definition Locate_Swt_Element (t : swt_tbl) (size key : Z) : outcome Z :=
  let size := size + 1 in
  locate_swt_loop (Z.to_nat size) t size key (Z.rem key size).
(** wam_inst.c:121-164 *)
Definition Create_Swt_Element (t : swt_tbl) (size key code : Z) : outcome swt_tbl :=
  do i <- Locate_Swt_Element t size key; Ret (supd t i (Swt key code)).
(** wam2ma.c:2080-2122: the calls emitted for a table *)
Fixpoint create_elements (t : swt_tbl) (size : Z) (l : list (Z * Z)) : outcome swt_tbl :=
  match l with
  | [] => Ret t
  | (k, c) :: l => do t <- Create_Swt_Element t size k c; create_elements t size l
  end.
Definition Build_Swt_Table (l : list (Z * Z)) : outcome swt_tbl :=
  create_elements Create_Swt_Table (Z.of_nat (length l)) l.
(** wam_inst.c:1211-1219, 1271-1279 (and 1240-1248 for integers when SWT_INT_DICHOTOMY is not
    defined); the key is the atom, or the word functor/arity.  [None]: ALTB(B), i.e. fail *)
Definition Switch_On (l : list (Z * Z)) (key : Z) : outcome (option Z) :=
  do t <- Build_Swt_Table l;
  do i <- Locate_Swt_Element t (Z.of_nat (length l)) key;
  Ret (if scode (t i) =? 0 then None else Some (scode (t i))).

(** ** Integers *)
(** the low 32 bits of a PlLong read as an int: LOAD_C_INT (wam2ma.c:300, wam_parser.h:94) *)
Definition c_int (x : Z) : Z := (x + 2 ^ 31) mod 2 ^ 32 - 2 ^ 31.
(** wam2ma.c:1424-1446: the cases written in the instruction switch_ret *)
Definition switch_cases (l : list (Z * Z)) : list (Z * Z) := map (fun kc => (c_int (fst kc), snd kc)) l.
(** ma2asm.c:727-731; int_val are PlLong *)
Definition Switch_Cmp_Int (a b : Z * Z) : Z := c_int (fst a - fst b).
(** qsort (C11 7.22.5.2): a permutation, sorted if the comparison is a consistent order on the
    elements *)
Definition consistent (cmp : Z * Z -> Z * Z -> Z) (l : list (Z * Z)) : Prop :=
  (forall a b, In a l -> In b l -> Z.sgn (cmp a b) = - Z.sgn (cmp b a)) /\
  (forall a b c, In a l -> In b l -> In c l -> cmp a b <= 0 -> cmp b c <= 0 -> cmp a c <= 0).
Definition qsorted (cmp : Z * Z -> Z * Z -> Z) (l l' : list (Z * Z)) : Prop :=
  Permutation l l' /\
  (consistent cmp l -> forall i j, (i < j < length l')%nat -> cmp (nth i l' (0, 0)) (nth j l' (0, 0)) <= 0).
(** ma2asm.c:665-718: the code emitted, executed at once with [x] in the return register.
    Switch_Equal on element i *)
Definition swt_at (l : list (Z * Z)) (i : Z) : outcome (Z * Z) :=
  if 0 <=? i then match nth_error l (Z.to_nat i) with Some e => Ret e | None => UB end else UB.
Definition Switch_Equal (l : list (Z * Z)) (x i : Z) (next : outcome (option Z)) : outcome (option Z) :=
  do e <- swt_at l i; if x =? fst e then Ret (Some (snd e)) else next.
Fixpoint Switch_Rec (fuel : nat) (start stop : Z) (l : list (Z * Z)) (x : Z) : outcome (option Z) :=
  match fuel with
  | O => NoFuel
  | S f =>
    match stop - start + 1 with
    | 1 => Switch_Equal l x start (Ret None)
    | 2 => Switch_Equal l x start (Switch_Equal l x stop (Ret None))
    | 3 => Switch_Equal l x start (Switch_Equal l x (start + 1) (Switch_Equal l x stop (Ret None)))
    | _ =>
      let mid := Z.quot (start + stop) 2 in
      Switch_Equal l x mid
        (do e <- swt_at l mid;
         if fst e <? x then Switch_Rec f (mid + 1) stop l x    (* Jump_If_Greater *)
         else Switch_Rec f start (mid - 1) l x)
    end
  end.
(** ma2asm.c:648-656 after qsort *)
Definition Switch_Ret (sorted : list (Z * Z)) (x : Z) : outcome (option Z) :=
  Switch_Rec (length sorted) 0 (Z.of_nat (length sorted) - 1) sorted x.
