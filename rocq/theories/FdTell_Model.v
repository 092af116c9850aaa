(** Restricting the domain of a variable: /repo/src/EngineFD/fd_inst.c.  A variable is a value: its tag
    word, its number of elements and its range; chains, dates, stamps and the trail are left out (the
    masks given to All_Propagations are results).  [warned]: Pl_Fd_Display_Extra_Cstr was called. *)
Require Import ZArith List Bool.
Require Import Verif.Heap_Model Verif.FdRange_Model.
Import ListNotations.
Open Scope Z_scope.

(** fd_inst.h:106-111 *)
Definition MASK_MIN := 1.
Definition MASK_MAX := 2.
Definition MASK_MIN_MAX := 4.
Definition MASK_DOM := 8.
Definition MASK_VAL := 16.
(** FD_Tag_Value (None: an unbound FD variable, Some n: the integer n), Nb_Elem, Range (fd_inst.h:56-64) *)
Record fdv := Fdv { tagv : option Z; nb_elem : Z; frange : range }.
Record told := Told { success : bool; var : fdv; warned : bool; propag : Z }.
Section Tell.
Variable sz : nat.
Notation vmax := (vmax sz).
(** the argument of a [Pl_Fd_Tell_...] function where a vector is allocated, and the words around *)
Variable junk : list Z.
Variable a : around.
(** fd_inst.c:260-288 *)
Definition Update_Range_From_Int (x : fdv) (n : Z) : fdv * Z :=
  let m := Z.lor MASK_MIN_MAX (Z.lor MASK_DOM MASK_VAL) in
  let m := if rmin (frange x) =? n then m else Z.lor m MASK_MIN in
  let m := if rmax (frange x) =? n then m else Z.lor m MASK_MAX in
  (Fdv (Some n) 1 (Range (extra_cstr (frange x)) n n None), m).
(** fd_inst.c:293-319 *)
Definition Update_Interval_From_Interval (x : fdv) (nb min max : Z) : fdv * Z :=
  if nb_elem x =? nb then (x, 0)
  else
    let m := Z.lor MASK_MIN_MAX MASK_DOM in
    let m := if rmin (frange x) =? min then m else Z.lor m MASK_MIN in
    let m := if rmax (frange x) =? max then m else Z.lor m MASK_MAX in
    (Fdv (tagv x) nb (Range (extra_cstr (frange x)) min max (vec (frange x))), m).
Definition is_interval (r : range) : bool := match vec r with None => true | Some _ => false end.
(** fd_inst.c:328-362.  In the last case the flag is written with FD_Bind_OV (fd_inst.c:202-209): a word of
    64 bits is stored at the address of [extra_cstr] (fd_range.h:54-61), which has 32 bits.  On a little-endian
    machine the other half is [min], which becomes 0. *)
Definition Update_Range_From_Range (x : fdv) (nb : Z) (r : range) : fdv * Z :=
  let m := if rmin (frange x) =? rmin r then 0 else Z.lor MASK_MIN MASK_MIN_MAX in
  let m := if rmax (frange x) =? rmax r then m else Z.lor m (Z.lor MASK_MAX MASK_MIN_MAX) in
  let m := if nb_elem x =? nb then m else Z.lor m MASK_DOM in
  if negb (m =? 0) || (is_interval (frange x) && negb (is_interval r)) then (Fdv (tagv x) nb r, m)
  else if Bool.eqb (extra_cstr (frange x)) (extra_cstr r) then (x, m)
  else (Fdv (tagv x) (nb_elem x) (Range (extra_cstr r) 0 (rmax (frange x)) (vec (frange x))), Z.lor m MASK_DOM).
(** fd_inst.c:1026-1046 *)
Definition Tell_Value (x : fdv) (n : Z) : outcome told :=
  do b <- Range_Test_Value (frange x) n;
  if b then
    match tagv x with
    | Some _ => Ret (Told true x false 0)
    | None => let '(x, m) := Update_Range_From_Int x n in Ret (Told true x false m)
    end
  else Ret (Told false x (extra_cstr (frange x) && (vmax <? n)) 0).
(** fd_inst.c:1055-1151; [m] is what was already given to All_Propagations.  A variable whose range
    becomes sparse goes back to the start once. *)
Fixpoint tell_not_value (fuel : nat) (x : fdv) (n m : Z) : outcome told :=
  match fuel with
  | O => NoFuel
  | S fuel =>
    let r := frange x in
    do b <- Range_Test_Value r n;
    if negb b then Ret (Told true x false m)
    else
      match tagv x with
      | Some _ => Ret (Told false x (extra_cstr r) m)
      | None =>
        let min := rmin r in
        let max := rmax r in
        if is_interval r && negb (n =? min) && negb (n =? max) then
          if vmax <? min then Ret (Told false x true m)
          else if min =? vmax then let '(x, m') := Update_Range_From_Int x min in Ret (Told true x true (Z.lor m m'))
          else
            do r <- Range_Becomes_Sparse sz junk r;
            do nb <- ck (rmax r - rmin r); do nb <- ck (nb + 1);
            tell_not_value fuel (Fdv None nb r) n (if extra_cstr r then Z.lor m (Z.lor MASK_MAX (Z.lor MASK_MIN_MAX MASK_DOM)) else m)
        else if nb_elem x =? 2 then
          let '(x, m') := Update_Range_From_Int x (if n =? min then max else min) in Ret (Told true x false (Z.lor m m'))
        else
          do v <- match vec r with None => Ret None | Some v => do v <- Vector_Reset_Value v n; Ret (Some v) end;
          let nb := nb_elem x - 1 in
          if n =? min then
            do p <- match v with None => ck (n + 1) | Some v => Vector_Next_After sz v n end;
            Ret (Told true (Fdv None nb (Range (extra_cstr r) p max v)) false (Z.lor m (Z.lor MASK_DOM (Z.lor MASK_MIN MASK_MIN_MAX))))
          else if n =? max then
            do q <- match v with None => ck (n - 1) | Some v => Vector_Next_Before sz v n end;
            Ret (Told true (Fdv None nb (Range (extra_cstr r) min q v)) false (Z.lor m (Z.lor MASK_DOM (Z.lor MASK_MAX MASK_MIN_MAX))))
          else Ret (Told true (Fdv None nb (Range (extra_cstr r) min max v)) false (Z.lor m MASK_DOM))
      end
  end.
Definition Tell_Not_Value (x : fdv) (n : Z) : outcome told := tell_not_value 2 x n 0.
(** fd_inst.c:1160-1174 *)
Definition Tell_Int_Range (x : fdv) (r : range) : outcome told :=
  let n := rmin (frange x) in
  do b <- Range_Test_Value r n;
  Ret (Told b x (negb b && (vmax <? n) && extra_cstr r) 0).
(** fd_inst.c:1183-1212 *)
Definition Tell_Interv_Interv (x : fdv) (min max : Z) : outcome told :=
  let min := Z.max min (rmin (frange x)) in
  let max := Z.min max (rmax (frange x)) in
  if max <? min then Ret (Told false x false 0)
  else if min =? max then let '(x, m) := Update_Range_From_Int x min in Ret (Told true x false m)
  else
    do nb <- ck (max - min); do nb <- ck (nb + 1);
    let '(x, m) := Update_Interval_From_Interval x nb min max in Ret (Told true x false m).
(** fd_inst.c:1221-1261 *)
Definition Tell_Range_Range (x : fdv) (r : range) : outcome told :=
  do r <- Range_Inter sz junk a r (frange x);
  if Is_Empty r then Ret (Told false x (extra_cstr r) 0)
  else if rmin r =? rmax r then let '(x, m) := Update_Range_From_Int x (rmin r) in Ret (Told true x (extra_cstr r) m)
  else
    do nb <- Range_Nb_Elem r;
    let '(x, m) := Update_Range_From_Range x nb r in Ret (Told true x false m).
(** fd_inst.c:1272-1291 *)
Definition Tell_Interval (x : fdv) (min max : Z) : outcome told :=
  match tagv x with
  | Some _ => let n := rmin (frange x) in Ret (Told ((min <=? n) && (n <=? max)) x false 0)
  | None => if is_interval (frange x) then Tell_Interv_Interv x min max else Tell_Range_Range x (Range_Interval min max)
  end.
(** fd_inst.c:1301-1308 *)
Definition Tell_Range (x : fdv) (r : range) : outcome told :=
  match tagv x with Some _ => Tell_Int_Range x r | None => Tell_Range_Range x r end.
(** fd_inst.c:1592-1647, from the test of the domain on: the part that restricts an FD variable.
    [Unify_With_Integer] is Tell_Value followed by propagation (fd_inst.c:1516-1523). *)
Definition Check_For_Bool_Var (x : fdv) : outcome told :=
  let r := frange x in
  if 1 <? rmin r then Ret (Told false x false 0)
  else if rmax r <=? 1 then Ret (Told true x false 0)
  else if rmin r =? 1 then Tell_Value x 1
  else
    do b <- Range_Test_Value r 1;
    if negb b then Tell_Value x 0
    else if is_interval r then Tell_Interv_Interv x 0 1 else Tell_Range_Range x (Range_Interval 0 1).
(** fd_inst.c:835-866, 902-920 *)
Definition New_Variable_Interval (min max : Z) : fdv := Fdv None (max - min + 1) (Range_Interval min max).
Definition New_Int_Variable (n : Z) : fdv := Fdv (Some n) 1 (Range_Interval n n).

(** ** From Prolog *)
(** fd_inst.c:499-512 (the 61-bit integer becomes an int) *)
Definition Prolog_To_Value (v : Z) : Z :=
  let v := if v <? - IMAX then - IMAX else v in
  if IMAX <? v then IMAX else v.
(** a dereferenced argument *)
Inductive arg := AVar | AInt (v : Z) | AFd (x : fdv).
(** what it becomes: unchanged, bound to an integer, an FD variable *)
(** BipsFD/fd_values_c.c:185-218 *)
Definition Domain_Interval (x : arg) (min max : Z) : outcome (option arg) :=
  match x with
  | AVar => if max <? min then Ret None else if min =? max then Ret (Some (AInt min)) else Ret (Some (AFd (New_Variable_Interval min max)))
  | AInt v => Ret (if (min <=? v) && (v <=? max) then Some x else None)
  | AFd x => do t <- Tell_Interval x min max; Ret (if success t then Some (AFd (var t)) else None)
  end.
(** BipsFD/fd_values_c.c:228-239: fd_domain(X, L, U) *)
Definition Domain_Var_3 (x : arg) (l u : Z) : outcome (option arg) :=
  let min := Prolog_To_Value l in
  let min := if min <? 0 then 0 else min in
  Domain_Interval x min (Prolog_To_Value u).
(** an FD variable and an integer in Pl_Unify (EnginePl/unify.c:147-160): the integer is passed as an int
    to Pl_Fd_Unify_With_Integer0 (fd_inst.c:1516-1523) *)
Definition Unify_With_Integer (x : fdv) (v : Z) : outcome told := Tell_Value x (to_int v).
(** fd_inst.c:441-468: an argument of a constraint *)
Definition Prolog_To_Fd_Var (x : arg) : fdv :=
  match x with AVar => New_Variable_Interval 0 IMAX | AInt v => New_Int_Variable (to_int v) | AFd x => x end.
End Tell.
