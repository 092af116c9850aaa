(** Ranges of the finite domain solver: /repo/src/EngineFD/fd_range.c and fd_range.h.
    A vector is the list of its 64-bit words, [sz] (pl_vec_size) of them; vectors are values, two
    ranges never share one.  A vector just allocated has unknown contents: the argument [junk].
    Signed overflow of int and accesses outside of a vector are [UB], except in
    Pl_Range_From_Vector, which reads around the vector: [around] gives the words there. *)
Require Import ZArith List Bool.
Require Import Verif.Heap_Model.
Import ListNotations.
Open Scope Z_scope.

Notation W := (2 ^ 64).
Definition INT_MIN := - 2 ^ 31.
Definition INT_MAX := 2 ^ 31 - 1.
(** the result of an operation on ints *)
Definition ck (x : Z) : outcome Z := if (INT_MIN <=? x) && (x <=? INT_MAX) then Ret x else UB.
(** fd_hook_range.h: INTERVAL_MAX_INTEGER *)
Definition IMAX := 2 ^ 28 - 1.

Section Vec.
Variable sz : nat.
(** pl_vec_max_integer (fd_range.c:125-131) *)
Definition vmax : Z := 64 * Z.of_nat sz - 1.
(** (VecWord) n of an int *)
Definition vw (n : Z) : Z := n mod W.
(** fd_range.h:193-195 *)
Definition Word_No (n : Z) : Z := Z.shiftr (vw n) 6.
Definition Bit_No (n : Z) : Z := Z.land (vw n) 63.
Definition rdv (v : list Z) (i : Z) : outcome Z :=
  if (0 <=? i) && (i <? Z.of_nat (length v)) then Ret (nth (Z.to_nat i) v 0) else UB.
Fixpoint upd (v : list Z) (i : nat) (w : Z) : list Z :=
  match v, i with [], _ => [] | _ :: r, O => w :: r | x :: r, S i => x :: upd r i w end.
Definition wrv (v : list Z) (i w : Z) : outcome (list Z) :=
  if (0 <=? i) && (i <? Z.of_nat (length v)) then Ret (upd v (Z.to_nat i) w) else UB.
(** fd_range.h:199-209 *)
Definition Vector_Test_Value (v : list Z) (n : Z) : outcome bool :=
  do w <- rdv v (Word_No n); Ret (negb (Z.land w (Z.shiftl 1 (Bit_No n)) =? 0)).
Definition Vector_Set_Value (v : list Z) (n : Z) : outcome (list Z) :=
  do w <- rdv v (Word_No n); wrv v (Word_No n) (Z.lor w (Z.shiftl 1 (Bit_No n))).
Definition Vector_Reset_Value (v : list Z) (n : Z) : outcome (list Z) :=
  do w <- rdv v (Word_No n); wrv v (Word_No n) (Z.land w (Z.lxor (W - 1) (Z.shiftl 1 (Bit_No n)))).
Definition ALL_1 : Z := W - 1.

(** fd_range.c:140-167; all the words are written *)
Definition Vector_From_Interval (min max : Z) : outcome (list Z) :=
  let w_min := Word_No min in
  let w_max := Word_No max in
  if (w_min <? Z.of_nat sz) && (w_max <? Z.of_nat sz) then
    let a := Z.to_nat w_min in
    let b := S (Z.to_nat w_max) in
    let v := repeat 0 a ++ repeat ALL_1 (b - a) ++ repeat 0 (sz - Nat.max a b) in
    do w <- rdv v w_min; do v <- wrv v w_min (Z.land w (Z.shiftl ALL_1 (Bit_No min) mod W));
    do w <- rdv v w_max; wrv v w_max (Z.land w (Z.shiftr ALL_1 (64 - 1 - Bit_No max)))
  else UB.
(** the bits of a word *)
Definition bits64 : list Z := map Z.of_nat (seq 0 64).
Definition popcount (w : Z) : Z := Z.of_nat (length (filter (Z.testbit w) bits64)).
(** only for non-zero words *)
Definition lsb (w : Z) : Z := match find (Z.testbit w) bits64 with Some i => i | None => 64 end.
Definition msb (w : Z) : Z := match find (Z.testbit w) (rev bits64) with Some i => i | None => -1 end.
(** fd_range.c:176-190 *)
Definition Vector_Nb_Elem (v : list Z) : Z := fold_left (fun nb w => nb + popcount w) v 0.
(** VECTOR_BEGIN_ENUM, VECTOR_END_ENUM (fd_range.h:241-266): the values of the variable, in order *)
Fixpoint enum_word (j : nat) (w e : Z) : list Z :=
  match j with
  | O => []
  | S j => (if Z.land w 1 =? 0 then [] else [e]) ++ enum_word j (Z.shiftr w 1) (e + 1)
  end.
Fixpoint enum_from (v : list Z) (e : Z) : list Z :=
  match v with [] => [] | w :: v => enum_word 64 w e ++ enum_from v (e + 64) end.
Definition enum (v : list Z) : list Z := enum_from v 0.
(** fd_range.c:199-215 *)
Definition Vector_Ith_Elem (v : list Z) (i : Z) : Z :=
  if 0 <? i then nth (Z.to_nat (i - 1)) (enum v) (-1) else -1.
(** fd_range.c:224-267.  [find_up]: the loop from the word [i] whose (masked) value is [w] *)
Fixpoint find_up (v : list Z) (w i : Z) : Z :=
  if w =? 0 then match v with [] => -1 | x :: v => find_up v x (i + 1) end
  else 64 * i + lsb w.
Definition Vector_Next_After (v : list Z) (n : Z) : outcome Z :=
  if 0 <=? n then
    if vmax <? n then Ret (-1)
    else
      let word_no := Word_No n in
      let bit_no := Bit_No n + 1 in
      do w <- rdv v word_no;
      let w := if 64 <=? bit_no then 0 else Z.land w (Z.lxor (W - 1) (Z.shiftl 1 bit_no - 1)) in
      Ret (find_up (skipn (S (Z.to_nat word_no)) v) w word_no)
  else
    do w <- rdv v 0; Ret (find_up (skipn 1 v) w 0).
(** fd_range.c:276-319; the words before, nearest first *)
Fixpoint find_down (v : list Z) (w i : Z) : Z :=
  if w =? 0 then match v with [] => -1 | x :: v => find_down v x (i - 1) end
  else 64 * i + msb w.
Definition Vector_Next_Before (v : list Z) (n : Z) : outcome Z :=
  if n <=? vmax then
    if n <? 0 then Ret (-1)
    else
      let word_no := Word_No n in
      let bit_no := Bit_No n in
      do w <- rdv v word_no;
      Ret (find_down (rev (firstn (Z.to_nat word_no) v)) (Z.land w (Z.shiftl 1 bit_no - 1)) word_no)
  else
    do w <- rdv v (Z.of_nat sz - 1);
    Ret (find_down (rev (firstn (sz - 1) v)) w (Z.of_nat sz - 1)).
(** fd_range.c:328-440 *)
Definition Vector_Empty : list Z := repeat 0 sz.
Definition Vector_Full : list Z := repeat ALL_1 sz.
Definition zip (f : Z -> Z -> Z) (v v1 : list Z) : list Z := map (fun p => f (fst p) (snd p)) (combine v v1).
Definition Vector_Test_Null_Inter (v v1 : list Z) : bool := forallb (fun w => w =? 0) (zip Z.land v v1).
Definition Vector_Union (v v1 : list Z) : list Z := zip Z.lor v v1.
Definition Vector_Inter (v v1 : list Z) : list Z := zip Z.land v v1.
Definition Vector_Compl (v : list Z) : list Z := map (Z.lxor (W - 1)) v.

(** what the body of an enumeration does with an element *)
Inductive step := Put (x : Z) | Skip | Stop.
Fixpoint inner (f : Z -> outcome step) (l : list Z) (v : list Z) : outcome (list Z) :=
  match l with
  | [] => Ret v
  | b :: l =>
    do s <- f b;
    match s with
    | Put x => do v <- Vector_Set_Value v x; inner f l v
    | Skip => inner f l v
    | Stop => Ret v
    end
  end.
Fixpoint outer (body : Z -> list Z -> outcome (list Z)) (l : list Z) (v : list Z) : outcome (list Z) :=
  match l with [] => Ret v | a :: l => do v <- body a v; outer body l v end.
(** fd_range.c:449-619 *)
Definition Vector_Add_Vector (v v1 : list Z) : outcome (list Z) :=
  outer (fun a => inner (fun b => do x <- ck (a + b); Ret (if vmax <? x then Stop else Put x)) (enum v1)) (enum v) Vector_Empty.
Definition Vector_Sub_Vector (v v1 : list Z) : outcome (list Z) :=
  outer (fun a => inner (fun b => do x <- ck (a - b); Ret (if x <? 0 then Stop else Put x)) (enum v1)) (enum v) Vector_Empty.
Definition Vector_Mul_Vector (v v1 : list Z) : outcome (list Z) :=
  outer (fun a => inner (fun b => do x <- ck (a * b); Ret (if vmax <? x then Stop else Put x)) (enum v1)) (enum v) Vector_Empty.
Definition Vector_Div_Vector (v v1 : list Z) : outcome (list Z) :=
  outer (fun a v => if a =? 0 then Vector_Set_Value v 0
                    else inner (fun b => Ret (if negb (b =? 0) && (Z.rem a b =? 0) then Put (Z.quot a b) else Skip)) (enum v1) v) (enum v) Vector_Empty.
Definition Vector_Mod_Vector (v v1 : list Z) : outcome (list Z) :=
  outer (fun a => inner (fun b => Ret (if negb (b =? 0) then Put (Z.rem a b) else Skip)) (enum v1)) (enum v) Vector_Empty.
(** fd_range.c:628-692: the words are moved, then shifted with a carry from word to word *)
Fixpoint shl_words (b rem : Z) (v : list Z) : list Z :=
  match v with [] => [] | w :: v => Z.lor (Z.shiftl w b mod W) rem :: shl_words b (Z.shiftr w (64 - b)) v end.
Fixpoint shr_words (b : Z) (v : list Z) : list Z * Z :=
  match v with
  | [] => ([], 0)
  | w :: v => let '(r, rem) := shr_words b v in (Z.lor (Z.shiftr w b) rem :: r, Z.shiftl w (64 - b) mod W)
  end.
Definition Vector_Add_Value (v : list Z) (n : Z) : outcome (list Z) :=
  if 0 <=? n then
    let word_no := Z.to_nat (Word_No n) in
    let bit_no := Bit_No n in
    let v := firstn sz (repeat 0 word_no ++ v) in
    Ret (if bit_no =? 0 then v else firstn word_no v ++ shl_words bit_no 0 (skipn word_no v))
  else
    do m <- ck (- n);
    let word_no := Z.to_nat (Word_No m) in
    let bit_no := Bit_No m in
    let v := skipn word_no v ++ repeat 0 (Nat.min word_no sz) in
    Ret (if bit_no =? 0 then v else fst (shr_words bit_no (firstn (sz - word_no) v)) ++ skipn (sz - word_no) v).
(** (unsigned) x > (unsigned) pl_vec_max_integer *)
Definition beyond (x : Z) : bool := vmax <? x mod 2 ^ 32.
(** fd_range.c:701-784 *)
Definition Vector_Mul_Value (v : list Z) (n : Z) : outcome (list Z) :=
  inner (fun a => do x <- ck (a * n); Ret (if beyond x then Stop else Put x)) (enum v) Vector_Empty.
Definition Vector_Div_Value (v : list Z) (n : Z) : outcome (list Z) :=
  if n =? 0 then Ret Vector_Empty
  else inner (fun a => Ret (if Z.rem a n =? 0 then Put (Z.quot a n) else Skip)) (enum v) Vector_Empty.
Definition Vector_Mod_Value (v : list Z) (n : Z) : outcome (list Z) :=
  if n =? 0 then Ret Vector_Empty
  else inner (fun a => let x := Z.rem a n in Ret (if beyond x then Skip else Put x)) (enum v) Vector_Empty.

(** ** Ranges *)
(** fd_range.h:54-61 *)
Record range := Range { extra_cstr : bool; rmin : Z; rmax : Z; vec : option (list Z) }.
Definition Is_Empty (r : range) : bool := rmax r <? rmin r.
Definition Set_To_Empty (r : range) : range := Range (extra_cstr r) (rmin r) INT_MIN (vec r).
Definition Range_Interval (min max : Z) : range := Range false min max None.
Definition set_extra (r : range) (e : bool) : range := Range e (rmin r) (rmax r) (vec r).
(** fd_range.c:793-806 *)
Definition Range_Test_Value (r : range) (n : Z) : outcome bool :=
  if (n <? rmin r) || (rmax r <? n) then Ret false
  else match vec r with
       | None => Ret true
       | Some v => if (n =? rmin r) || (n =? rmax r) then Ret true else Vector_Test_Value v n
       end.
(** the last loop of the next function, from [i] on, [k] times *)
Fixpoint test_loop (k : nat) (v : list Z) (i : Z) : outcome bool :=
  match k with O => Ret true | S k => do b <- Vector_Test_Value v i; if b then Ret false else test_loop k v (i + 1) end.
(** fd_range.c:815-853; the recursive call exchanges the arguments *)
Definition Range_Test_Null_Inter (r r1 : range) : outcome bool :=
  if (rmax r1 <? rmin r) || (rmax r <? rmin r1) then Ret true
  else if (rmin r =? rmin r1) || (rmin r =? rmax r1) || (rmax r =? rmin r1) || (rmax r =? rmax r1) then Ret false
  else
    let overlap := ((rmin r1 <=? rmin r) && (rmax r1 <=? rmax r)) || ((rmin r <=? rmin r1) && (rmax r <=? rmax r1)) in
    let interval_sparse r r1 v1 := if rmin r <=? rmin r1 then Ret false else test_loop (Z.to_nat (rmax r - rmin r + 1)) v1 (rmin r) in
    match vec r, vec r1 with
    | Some v, Some v1 => Ret (Vector_Test_Null_Inter v1 v)
    | None, None => Ret false
    | None, Some v1 => if overlap then Ret false else interval_sparse r r1 v1
    | Some v, None => if overlap then Ret false else interval_sparse r1 r v
    end.
(** fd_range.c:885-893 *)
Definition Range_Nb_Elem (r : range) : outcome Z :=
  match vec r with
  | None => do d <- ck (rmax r - rmin r); ck (d + 1)
  | Some v => Ret (Vector_Nb_Elem v)
  end.
(** fd_range.c:902-919 *)
Definition Range_Ith_Elem (r : range) (i : Z) : outcome Z :=
  if Is_Empty r then Ret (-1)
  else match vec r with
       | None => do n <- ck (rmin r + i); do n <- ck (n - 1); Ret (if (n <? rmin r) || (rmax r <? n) then -1 else n)
       | Some v => Ret (Vector_Ith_Elem v i)
       end.
(** fd_range.c:928-977 *)
Definition Range_Next_After (r : range) (n : Z) : outcome Z :=
  if Is_Empty r then Ret (-1)
  else match vec r with
       | None => if rmax r <=? n then Ret (-1) else Ret (Z.max (n + 1) (rmin r))
       | Some v => Vector_Next_After v n
       end.
Definition Range_Next_Before (r : range) (n : Z) : outcome Z :=
  if Is_Empty r then Ret (-1)
  else match vec r with
       | None => if n <=? rmin r then Ret (-1) else Ret (Z.min (n - 1) (rmax r))
       | Some v => Vector_Next_Before v n
       end.
(** fd_range.c:986-999 *)
Definition Range_Becomes_Sparse (junk : list Z) (r : range) : outcome range :=
  let v := match vec r with None => junk | Some v => v end in
  let min := if rmin r <? 0 then 0 else rmin r in
  let e := vmax <? rmax r in
  let max := if e then vmax else rmax r in
  if min <=? max then do v <- Vector_From_Interval min max; Ret (Range e min max (Some v))
  else Ret (Range e min max (Some v)).
(** the word after the vector and the words before it, nearest first *)
Record around := Around { above : Z; below : list Z }.
(** Word_No_And_Bit_No, an int *)
Definition to_int (x : Z) : Z := (x + 2 ^ 31) mod 2 ^ 32 - 2 ^ 31.
(** fd_range.c:1008-1036: on an empty vector the first loop reads the word after it and the second
    loop may go on below *)
Fixpoint first_up (v : list Z) (i : Z) : option Z :=
  match v with [] => None | w :: v => if w =? 0 then first_up v (i + 1) else Some (64 * i + lsb w) end.
Fixpoint first_down (v : list Z) (i : Z) : option Z :=
  match v with [] => None | w :: v => if w =? 0 then first_down v (i - 1) else Some (64 * i + msb w) end.
Definition Range_From_Vector (a : around) (r : range) : outcome range :=
  match vec r with
  | None => UB
  | Some v =>
    match first_up v 0, first_down (rev v) (Z.of_nat (length v) - 1) with
    | Some lo, Some hi => Ret (Range (extra_cstr r) (to_int lo) (to_int hi) (vec r))
    | _, _ =>
      if above a =? 0 then Ret (Set_To_Empty r)
      else match first_down (below a) (-1) with
           | Some hi => Ret (Range (extra_cstr r) (to_int (64 * Z.of_nat (length v) + lsb (above a))) (to_int hi) (vec r))
           | None => UB
           end
    end
  end.
(** fd_range.c:1045-1092 *)
Definition Range_Set_Value (junk : list Z) (a : around) (r : range) (n : Z) : outcome range :=
  if Is_Empty r then Ret (Range_Interval n n)
  else match vec r with
  | None =>
    if (rmin r <=? n) && (n <=? rmax r) then Ret r
    else
      do p <- ck (rmin r - 1);
      if n =? p then Ret (Range (extra_cstr r) p (rmax r) None)
      else
        do q <- ck (rmax r + 1);
        if n =? q then Ret (Range (extra_cstr r) (rmin r) q None)
        else
          do r <- Range_Becomes_Sparse junk r;
          if beyond n then Ret (set_extra r true)
          else
            match vec r with
            | Some v => do v <- Vector_Set_Value v n; Range_From_Vector a (Range (extra_cstr r) (rmin r) (rmax r) (Some v))
            | None => UB
            end
  | Some v =>
    if beyond n then Ret (set_extra r true)
    else
      do v <- Vector_Set_Value v n;
      let r := Range (extra_cstr r) (rmin r) (rmax r) (Some v) in
      if (n <? rmin r) || (rmax r <? n) then Range_From_Vector a r else Ret r
  end.
(** fd_range.c:1101-1142 *)
Definition Range_Reset_Value (junk : list Z) (a : around) (r : range) (n : Z) : outcome range :=
  if Is_Empty r || (n <? rmin r) || (rmax r <? n) then Ret r
  else if rmin r =? rmax r then Ret (Set_To_Empty r)
  else match vec r with
  | None =>
    if n =? rmin r then do p <- ck (rmin r + 1); Ret (Range (extra_cstr r) p (rmax r) None)
    else if n =? rmax r then do q <- ck (rmax r - 1); Ret (Range (extra_cstr r) (rmin r) q None)
    else
      do r <- Range_Becomes_Sparse junk r;
      if beyond n then Ret r
      else match vec r with
           | Some v => do v <- Vector_Reset_Value v n; Ret (Range (extra_cstr r) (rmin r) (rmax r) (Some v))
           | None => UB
           end
  | Some v =>
    if beyond n then Ret r
    else
      do v <- Vector_Reset_Value v n;
      let r := Range (extra_cstr r) (rmin r) (rmax r) (Some v) in
      if (n =? rmin r) || (n =? rmax r) then Range_From_Vector a r else Ret r
  end.
(** the second range, or a sparse copy of it: the copy when it is an interval *)
Definition sparse_copy (junk : list Z) (r : range) : outcome range :=
  match vec r with None => Range_Becomes_Sparse junk r | Some _ => Ret r end.
Definition the_vec (r : range) : list Z := match vec r with Some v => v | None => [] end.
(** fd_range.c:1151-1204; both become sparse unless the intervals touch *)
Definition Range_Union (junk junk1 : list Z) (r r1 : range) : outcome range :=
  let sparse :=
    do r <- sparse_copy junk r;
    do r1 <- sparse_copy junk1 r1;
    let e := extra_cstr r || extra_cstr r1 in
    if Is_Empty r then Ret (set_extra r1 e)
    else if Is_Empty r1 then Ret (set_extra r e)
    else Ret (Range e (Z.min (rmin r) (rmin r1)) (Z.max (rmax r) (rmax r1)) (Some (Vector_Union (the_vec r) (the_vec r1)))) in
  match vec r, vec r1 with
  | None, None =>
    if negb (Is_Empty r) && negb (Is_Empty r1) then
      do p <- ck (rmax r + 1);
      if rmin r1 <=? p then
        do q <- ck (rmax r1 + 1);
        if rmin r <=? q then Ret (Range (extra_cstr r) (Z.min (rmin r) (rmin r1)) (Z.max (rmax r) (rmax r1)) None)
        else sparse
      else sparse
    else sparse
  | _, _ => sparse
  end.
(** fd_range.c:1213-1252 *)
Definition Range_Inter (junk : list Z) (a : around) (r r1 : range) : outcome range :=
  match vec r, vec r1 with
  | None, None => Ret (Range (extra_cstr r) (Z.max (rmin r) (rmin r1)) (Z.min (rmax r) (rmax r1)) None)
  | _, _ =>
    do r <- sparse_copy junk r;
    do r1 <- sparse_copy junk r1;
    let e := extra_cstr r && extra_cstr r1 in
    if Is_Empty r then Ret (set_extra r e)
    else if Is_Empty r1 then Ret (Set_To_Empty (set_extra r e))
    else Range_From_Vector a (Range e (rmin r) (rmax r) (Some (Vector_Inter (the_vec r) (the_vec r1))))
  end.
(** fd_range.c:1261-1310 *)
Definition Range_Compl (junk : list Z) (a : around) (r : range) : outcome range :=
  let sparse r :=
    if Is_Empty r then Ret (Range true 0 vmax (Some Vector_Full))
    else Range_From_Vector a (Range true (rmin r) (rmax r) (Some (Vector_Compl (the_vec r)))) in
  match vec r with
  | None =>
    if Is_Empty r then Ret (Range (extra_cstr r) 0 IMAX None)
    else if rmin r <=? 0 then
      if IMAX <=? rmax r then Ret (Set_To_Empty r) else Ret (Range (extra_cstr r) (rmax r + 1) IMAX None)
    else if IMAX <=? rmax r then Ret (Range (extra_cstr r) 0 (rmin r - 1) None)
    else do r <- Range_Becomes_Sparse junk r; sparse r
  | Some _ => sparse r
  end.
(** fd_range.c:1319-1361 *)
Definition Range_Add_Range (junk : list Z) (a : around) (r r1 : range) : outcome range :=
  if Is_Empty r then Ret r
  else if Is_Empty r1 then Ret (Set_To_Empty r)
  else match vec r, vec r1 with
  | None, None => do p <- ck (rmin r + rmin r1); do q <- ck (rmax r + rmax r1); Ret (Range (extra_cstr r) p q None)
  | _, _ =>
    do r <- sparse_copy junk r;
    do r1 <- sparse_copy junk r1;
    do v <- Vector_Add_Vector (the_vec r) (the_vec r1);
    do p <- ck (rmin r + rmin r1);
    do q <- ck (rmax r + rmax r1);
    let r := Range (extra_cstr r || (extra_cstr r1 || (vmax <? q))) p q (Some v) in
    if extra_cstr r || (rmin r <? 0) then Range_From_Vector a r else Ret r
  end.
(** fd_range.c:1370-1411 *)
Definition Range_Sub_Range (junk : list Z) (a : around) (r r1 : range) : outcome range :=
  if Is_Empty r then Ret r
  else if Is_Empty r1 then Ret (Set_To_Empty r)
  else match vec r, vec r1 with
  | None, None => do p <- ck (rmin r - rmax r1); do q <- ck (rmax r - rmin r1); Ret (Range (extra_cstr r) p q None)
  | _, _ =>
    do r <- sparse_copy junk r;
    do r1 <- sparse_copy junk r1;
    do v <- Vector_Sub_Vector (the_vec r) (the_vec r1);
    do p <- ck (rmin r - rmax r1);
    do q <- ck (rmax r - rmin r1);
    let r := Range (extra_cstr r || extra_cstr r1) p q (Some v) in
    if extra_cstr r || (rmin r <? 0) then Range_From_Vector a r else Ret r
  end.
(** fd_range.c:1420-1526: multiplication, division, modulo *)
Definition Range_By_Vectors (op : list Z -> list Z -> outcome (list Z)) (junk junk1 : list Z) (a : around) (r r1 : range) : outcome range :=
  if Is_Empty r then Ret r
  else if Is_Empty r1 then Ret (Set_To_Empty r)
  else
    do r <- sparse_copy junk r;
    do r1 <- sparse_copy junk1 r1;
    do v <- op (the_vec r) (the_vec r1);
    Range_From_Vector a (Range (extra_cstr r || extra_cstr r1) (rmin r) (rmax r) (Some v)).
Definition Range_Mul_Range := Range_By_Vectors Vector_Mul_Vector.
Definition Range_Div_Range := Range_By_Vectors Vector_Div_Vector.
Definition Range_Mod_Range := Range_By_Vectors Vector_Mod_Vector.
(** fd_range.c:1535-1557 *)
Definition Range_Add_Value (a : around) (r : range) (n : Z) : outcome range :=
  if (n =? 0) || Is_Empty r then Ret r
  else match vec r with
  | None => do p <- ck (rmin r + n); do q <- ck (rmax r + n); Ret (Range (extra_cstr r) p q None)
  | Some v =>
    do v <- Vector_Add_Value v n;
    do p <- ck (rmin r + n);
    do q <- ck (rmax r + n);
    let r := Range (extra_cstr r || (vmax <? q)) p q (Some v) in
    if extra_cstr r || (rmin r <? 0) then Range_From_Vector a r else Ret r
  end.
(** fd_range.c:1565-1582 *)
Definition Range_Mul_Value (junk : list Z) (a : around) (r : range) (n : Z) : outcome range :=
  if (n =? 1) || Is_Empty r then Ret r
  else
    do r <- sparse_copy junk r;
    do v <- Vector_Mul_Value (the_vec r) n;
    do p <- ck (rmin r * n);
    do q <- ck (rmax r * n);
    let r := Range (extra_cstr r || (vmax <? q)) p q (Some v) in
    if extra_cstr r then Range_From_Vector a r else Ret r.
(** fd_range.c:1591-1608 *)
Definition Range_Div_Value (junk : list Z) (a : around) (r : range) (n : Z) : outcome range :=
  if (n =? 1) || Is_Empty r then Ret r
  else
    do r <- sparse_copy junk r;
    do v <- Vector_Div_Value (the_vec r) n;
    if n =? 0 then UB
    else
      do p <- ck (rmin r + n);
      do p <- ck (p - 1);
      let p := Z.quot p n in
      let q := Z.quot (rmax r) n in
      let r := Range (extra_cstr r || (vmax <? q)) p q (Some v) in
      if extra_cstr r then Range_From_Vector a r else Ret r.
(** fd_range.c:1617-1688 *)
Definition Range_Mod_Value (junk junk1 : list Z) (a : around) (r : range) (n : Z) : outcome range :=
  if Is_Empty r then Ret r
  else
    do n <- (if n <? 0 then ck (- n) else Ret n);
    match vec r with
    | None =>
      let e := extra_cstr r in
      if 0 <=? rmin r then
        do d <- ck (rmax r - rmin r); do d <- ck (d + 1);
        if n <=? d then Ret (Range e 0 (n - 1) None)
        else
          let p := Z.rem (rmin r) n in
          let q := Z.rem (rmax r) n in
          if q <? p then Range_Union junk junk1 (Range e p (n - 1) None) (Range_Interval 0 q)
          else Ret (Range e p q None)
      else if rmax r <=? 0 then
        do d <- ck (rmax r - rmin r); do d <- ck (d + 1);
        if n <=? d then Ret (Range e (- (n - 1)) 0 None)
        else
          let p := Z.rem (rmin r) n in
          let q := Z.rem (rmax r) n in
          if q <? p then Range_Union junk junk1 (Range e p 0 None) (Range_Interval (- (n - 1)) q)
          else Ret (Range e p q None)
      else Ret (Range e (Z.max (rmin r) (- n + 1)) (Z.min (rmax r) (n - 1)) None)
    | Some v =>
      do v <- Vector_Mod_Value v n;
      Range_From_Vector a (Range (extra_cstr r) (rmin r) (rmax r) (Some v))
    end.
End Vec.
