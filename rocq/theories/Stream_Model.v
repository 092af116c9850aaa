(** Streams: /repo/src/BipsPl/stream_supp.c and stream_supp.h.
    The file under a stream is its bytes and an offset (fgetc, ftell and fseek of a regular file); char is unsigned
    (configure.in:613).  The counters char_count, line_count and line_pos are unbounded. *)
Require Import ZArith List Bool.
Require Import Verif.Heap_Model.
Import ListNotations.
Open Scope Z_scope.

Definition EOF : Z := -1.
Definition NL : Z := 10.
(** stream_supp.h:48 *)
Definition PB_SIZE : nat := 8.

(** ** Push back stacks (stream_supp.h:118-123, 489-537) *)
Record pb := PB { buff : nat -> Z; ptr : nat; nb : nat }.
Definition PB_Init (p : pb) : pb := PB (buff p) 0 0.
Definition PB_Is_Empty (p : pb) : bool := Nat.eqb (nb p) 0.
Definition PB_Push (p : pb) (e : Z) : pb :=
  PB (fun i => if Nat.eqb i (ptr p) then e else buff p i)
     (if Nat.eqb (ptr p) (PB_SIZE - 1) then 0 else S (ptr p))
     (if Nat.ltb (nb p) PB_SIZE then S (nb p) else nb p).
Definition PB_Pop (p : pb) : Z * pb :=
  let q := if Nat.eqb (ptr p) 0 then (PB_SIZE - 1)%nat else (ptr p - 1)%nat in (buff p q, PB (buff p) q (nb p - 1)).
Definition PB_Top (p : pb) : Z := if Nat.eqb (ptr p) 0 then buff p (PB_SIZE - 1)%nat else buff p (ptr p - 1)%nat.

(** ** Input streams (stream_supp.h:140-166) *)
Inductive eof_act := EOF_ERROR | EOF_CODE | EOF_RESET.
Record prop := Prop_ { eof_action : eof_act; reposition : bool; is_text : bool }.
(** [file], [off]: the bytes of the file and its offset *)
Record stm := Stm { file : list Z; off : nat; eof_reached : bool; pb_char : pb; char_count : Z; line_count : Z; line_pos : Z; pb_line_pos : pb }.
Definition with_off (s : stm) (n : nat) : stm := Stm (file s) n (eof_reached s) (pb_char s) (char_count s) (line_count s) (line_pos s) (pb_line_pos s).
Definition with_eof (s : stm) (b : bool) : stm := Stm (file s) (off s) b (pb_char s) (char_count s) (line_count s) (line_pos s) (pb_line_pos s).
Definition with_pbc (s : stm) (p : pb) : stm := Stm (file s) (off s) (eof_reached s) p (char_count s) (line_count s) (line_pos s) (pb_line_pos s).
Definition with_pbl (s : stm) (p : pb) : stm := Stm (file s) (off s) (eof_reached s) (pb_char s) (char_count s) (line_count s) (line_pos s) p.
Definition with_pos (s : stm) (c l p : Z) : stm := Stm (file s) (off s) (eof_reached s) (pb_char s) c l p (pb_line_pos s).
(** stream_supp.c:409-446; what is in the two buffers is arbitrary *)
Definition Init_Stream_Struct (f : list Z) (b1 b2 : nat -> Z) : stm := Stm f 0 false (PB b1 0 0) 0 0 0 (PB b2 0 0).
(** fgetc *)
Definition CALL_GETC (s : stm) : Z * stm := match nth_error (file s) (off s) with Some c => (c, with_off s (S (off s))) | None => (EOF, s) end.
(** stream_supp.c:1255-1264 *)
Definition Update_Counters (s : stm) (c : Z) : stm :=
  let cc := if c =? EOF then char_count s else char_count s + 1 in
  if c =? NL then with_pos s cc (line_count s + 1) 0 else with_pos s cc (line_count s) (line_pos s + 1).
(** fseek: SEEK_SET, SEEK_CUR, SEEK_END *)
Inductive whence := SET | CUR | END_.
Definition CALL_SEEK (s : stm) (o : Z) (w : whence) : option stm :=
  let t := match w with SET => o | CUR => Z.of_nat (off s) + o | END_ => Z.of_nat (length (file s)) + o end in
  if t <? 0 then None else Some (with_off s (Z.to_nat t)).
(** stream_supp.c:1721-1748; the answer is [false] when the seek fails *)
Definition Set_Position (g : prop) (s : stm) (w : whence) (o cc lc lp : Z) : bool * stm :=
  match CALL_SEEK s o w with
  | None => (false, s)
  | Some s =>
    let s := if is_text g then with_pos s cc lc lp else with_pos s cc (line_count s) (line_pos s) in
    (true, with_pbl (with_pbc (with_eof s false) (PB_Init (pb_char s))) (PB_Init (pb_line_pos s)))
  end.
(** what reading gives: a code (or EOF), or the permission error past_end_of_stream *)
Inductive ans := Code (c : Z) | Past.
(** stream_supp.c:1229-1250; [inl]: the function returns at once *)
Definition Before_Reading (g : prop) (s : stm) : ans + stm :=
  if eof_reached s then
    match eof_action g with
    | EOF_ERROR => inl Past
    | EOF_CODE => inl (Code EOF)
    | EOF_RESET => let s := with_eof s false in inr (if reposition g then snd (Set_Position g s SET 0 0 0 0) else s)
    end
  else inr s.
(** stream_supp.c:1399-1425; mirrors and the echo on a piped stdin are not modelled (1274-1294) *)
Definition Getc (g : prop) (s : stm) : ans * stm :=
  match Before_Reading g s with
  | inl a => (a, s)
  | inr s =>
    let '(c, s) := if PB_Is_Empty (pb_char s) then CALL_GETC s else let '(c, p) := PB_Pop (pb_char s) in (c, with_pbc s p) in
    let s := if c =? EOF then with_eof s true else s in
    let s := if c =? NL then with_pbl s (PB_Push (pb_line_pos s) (line_pos s)) else s in
    (Code c, Update_Counters s c)
  end.
(** stream_supp.c:1436-1457 *)
Definition Ungetc (s : stm) (c : Z) : stm :=
  let s := with_eof (with_pbc s (PB_Push (pb_char s) c)) false in
  let s := if 0 <? char_count s then with_pos s (char_count s - 1) (line_count s) (line_pos s) else s in
  if c =? NL then
    let s := if 0 <? line_count s then with_pos s (char_count s) (line_count s - 1) (line_pos s) else s in
    if PB_Is_Empty (pb_line_pos s) then with_pos s (char_count s) (line_count s) 0
    else let '(lp, p) := PB_Pop (pb_line_pos s) in with_pos (with_pbl s p) (char_count s) (line_count s) lp
  else if 0 <? line_pos s then with_pos s (char_count s) (line_count s) (line_pos s - 1) else s.
(** stream_supp.c:1466-1482 *)
Definition Peekc (g : prop) (s : stm) : ans * stm :=
  match Before_Reading g s with
  | inl a => (a, s)
  | inr s =>
    if PB_Is_Empty (pb_char s) then let '(c, s) := CALL_GETC s in (Code c, with_pbc s (PB_Push (pb_char s) c))
    else (Code (PB_Top (pb_char s)), s)
  end.
(** stream_supp.c:1658-1675, for an input stream *)
Inductive eos := EOF_NOT | EOF_AT | EOF_PAST.
Definition End_Of_Stream (g : prop) (s : stm) : eos * stm :=
  match eof_action g with
  | EOF_RESET => (EOF_NOT, s)
  | _ =>
    if eof_reached s then (EOF_PAST, s)
    else let '(a, s) := Peekc g s in (match a with Code c => if c =? EOF then EOF_AT else EOF_NOT | Past => EOF_NOT end, s)
  end.
(** stream_supp.c:1683-1712: offset, char_count, line_count, line_pos *)
Definition Get_Position (g : prop) (s : stm) : Z * Z * Z * Z :=
  let o := if reposition g then Z.max 0 (Z.of_nat (off s) - Z.of_nat (nb (pb_char s))) else 0 in
  if is_text g then (o, char_count s, line_count s, line_pos s) else (o, char_count s, 0, 0).
(** stream_supp.c:1758-1832; at most one turn of each loop per byte of the file, and one more.
    The error past_end_of_stream (here UB) cannot happen: eof_reached is false at the start and EOF leaves the loops *)
Fixpoint lc_lines (fuel : nat) (g : prop) (s : stm) (n : Z) : outcome (bool * stm) :=
  match fuel with
  | O => NoFuel
  | S fuel =>
    if line_count s <? n then
      let '(a, s) := Getc g s in match a with Code c => if c =? EOF then Ret (false, s) else lc_lines fuel g s n | Past => UB end
    else Ret (true, s)
  end.
Fixpoint lc_cols (fuel : nat) (g : prop) (s : stm) (n : Z) : outcome (bool * stm) :=
  match fuel with
  | O => NoFuel
  | S fuel =>
    if line_pos s <? n then
      let '(a, s) := Getc g s in match a with Code c => if (c =? EOF) || (c =? NL) then Ret (false, s) else lc_cols fuel g s n | Past => UB end
    else Ret (true, s)
  end.
Definition Set_Position_LC (g : prop) (s : stm) (lc lp : Z) : outcome (bool * stm) :=
  let p := PB (buff (pb_char s)) (ptr (pb_char s)) 0 in
  let s1 := with_pos (with_pbc (with_eof (with_off s 0) false) p) 0 0 0 in
  do r <- lc_lines (S (length (file s))) g s1 lc;
  do r <- (if fst r then lc_cols (S (length (file s))) g (snd r) lp else Ret r);
  let s2 := snd r in
  if fst r then Ret (true, with_pbl (with_pbc s2 (PB_Init (pb_char s2))) (PB_Init (pb_line_pos s2)))
  else
    let s2 := with_pos (with_eof s2 (eof_reached s)) (char_count s) (line_count s) (line_pos s) in
    Ret (false, with_off (with_pbc s2 (PB (buff (pb_char s2)) (ptr (pb_char s2)) (nb (pb_char s)))) (off s)).
(** stream_c.c:1228-1271: seek/4 (the new location is read with Get_Position) *)
Definition Seek (g : prop) (s : stm) (w : whence) (o : Z) : bool * stm := Set_Position g s w o o 0 0.
(** stream_supp.c:1491-1518; the array has [size] bytes; the answer is what is written in it, or None for NULL *)
Definition put_byte (size : nat) (l : list Z) (c : Z) : outcome (list Z) := if Nat.ltb (length l) size then Ret (l ++ [c]) else UB.
Fixpoint gets_loop (fuel : nat) (g : prop) (s : stm) (size : nat) (l : list Z) : outcome (option (list Z) * stm) :=
  if Nat.leb size (length l) then do l <- put_byte size l 0; Ret (Some l, s)
  else match fuel with
  | O => NoFuel
  | S fuel =>
    let '(a, s) := Getc g s in
    match a with
    | Past => Ret (None, s)
    | Code c =>
      if c =? EOF then match l with [] => Ret (None, s) | _ => do l <- put_byte size l 0; Ret (Some l, s) end
      else
        do l <- put_byte size l c;
        if c =? NL then do l <- put_byte size l 0; Ret (Some l, s) else gets_loop fuel g s size l
    end
  end.
Definition Gets (g : prop) (s : stm) (size : nat) : outcome (option (list Z) * stm) := gets_loop size g s size [].

(** ** Output streams; string streams (stream_supp.c:1559-1588, 1854-1908, 1943-1950, 1999-2020) *)
Record ostm := Ostm { o_buf : nat -> option Z; o_ptr : nat; o_alloc : Z; o_cc : Z; o_lc : Z; o_lp : Z }.
Definition BLOCK : Z := 1024.
Definition New_Str_Stream : ostm := Ostm (fun _ => None) 0 BLOCK 0 0 0.
Definition write_buf (s : ostm) (i : nat) (c : Z) : outcome ostm :=
  if Z.of_nat i <? o_alloc s then Ret (Ostm (fun j => if Nat.eqb j i then Some c else o_buf s j) (o_ptr s) (o_alloc s) (o_cc s) (o_lc s) (o_lp s)) else UB.
Definition Str_Stream_Putc (s : ostm) (c : Z) : outcome ostm :=
  let size := Z.of_nat (o_ptr s) in
  do s <- (if o_alloc s - 1 <=? size then if o_alloc s + BLOCK <? 2 ^ 31 then Ret (Ostm (o_buf s) (o_ptr s) (o_alloc s + BLOCK) (o_cc s) (o_lc s) (o_lp s)) else UB else Ret s);
  do s <- write_buf s (o_ptr s) c;
  Ret (Ostm (o_buf s) (S (o_ptr s)) (o_alloc s) (o_cc s) (o_lc s) (o_lp s)).
Definition Putc (s : ostm) (c : Z) : outcome ostm :=
  do s <- Str_Stream_Putc s c;
  let cc := if c =? EOF then o_cc s else o_cc s + 1 in
  Ret (if c =? NL then Ostm (o_buf s) (o_ptr s) (o_alloc s) cc (o_lc s + 1) 0 else Ostm (o_buf s) (o_ptr s) (o_alloc s) cc (o_lc s) (o_lp s + 1)).
Fixpoint Puts (s : ostm) (l : list Z) : outcome ostm := match l with [] => Ret s | c :: l => do s <- Putc s c; Puts s l end.
(** writes the final null *)
Definition Terminate (s : ostm) : outcome ostm := write_buf s (o_ptr s) 0.
