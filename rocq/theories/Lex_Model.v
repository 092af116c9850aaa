(** The scanner.  /repo/src/BipsPl/lexer_supp.c:97-754 and the character types
    /repo/src/EnginePl/atom.c:84-110, 159-162.

    The input stream is the list of the bytes still to be read (0..255); the end of file
    is -1 and can be read again.  Lines and columns are not modelled.  Character counts of
    the stream are those of C41.

    char is unsigned in this directory (-funsigned-char, configure.in:613 and
    BipsPl/Makefile.in:93).

    pl_token.name is an array of LEXER_BIG_BUFFER bytes; a store beyond it is UB.  An int
    overflow is UB. *)
Require Import ZArith List Bool.
Require Import Verif.Heap_Model.
Import ListNotations.
Open Scope Z_scope.

(** /repo/src/EnginePl/atom.h:52-64; C0: no type (value 0, given for the end of file) *)
Inductive ctype : Type :=
| LA | SC | QT | DQ | BQ | GR | PC | DI | UL | CL | SL | CM | EX | C0.

(** what the scanner takes from outside: islower and isupper for 128..255 (locale), the
    character conversion (identity if the flag char_conversion is off), the flag strict_iso,
    the flags double_quotes and back_quotes being one of the no_escape values, and '' being
    an infix or postfix operator *)
Record env : Type := Env {
  lower : Z -> bool;
  upper : Z -> bool;
  conv : Z -> Z;
  strict_iso : bool;
  dq_no_escape : bool;
  bq_no_escape : bool;
  void_op : bool }.

(** /repo/src/EnginePl/atom.c:84-110 *)
Definition char_type_table : list ctype :=
  [LA; LA; LA; LA; LA; LA; LA; LA; LA; LA; LA; LA; LA; LA; LA; LA;
   LA; LA; LA; LA; LA; LA; LA; LA; LA; LA; LA; LA; LA; LA; LA; LA;
   LA; SC; DQ; GR; GR; CM; GR; QT; PC; PC; GR; GR; SC; GR; GR; GR;
   DI; DI; DI; DI; DI; DI; DI; DI; DI; DI; GR; SC; GR; GR; GR; GR;
   GR; CL; CL; CL; CL; CL; CL; CL; CL; CL; CL; CL; CL; CL; CL; CL;
   CL; CL; CL; CL; CL; CL; CL; CL; CL; CL; CL; PC; GR; PC; GR; UL;
   BQ; SL; SL; SL; SL; SL; SL; SL; SL; SL; SL; SL; SL; SL; SL; SL;
   SL; SL; SL; SL; SL; SL; SL; SL; SL; SL; SL; PC; PC; PC; GR; LA].

(** pl_char_type after Pl_Init_Atom, atom.c:159-162 *)
Definition char_type (e : env) (c : Z) : ctype :=
  if c <? 128 then nth (Z.to_nat c) char_type_table LA
  else if lower e c then SL else if upper e c then CL else EX.

(** c_type & (UL | CL | SL | DI) *)
Definition alnum (t : ctype) : bool :=
  match t with UL | CL | SL | DI => true | _ => false end.
(** c_type & (LA | CM) *)
Definition layout_or_comment (t : ctype) : bool :=
  match t with LA | CM => true | _ => false end.
Definition is_GR (t : ctype) : bool := match t with GR => true | _ => false end.
Definition is_DI (t : ctype) : bool := match t with DI => true | _ => false end.
Definition is_LA (t : ctype) : bool := match t with LA => true | _ => false end.

(** strchr: the index of c (converted to a char) in the string, the final 0 included *)
Fixpoint index_of (s : list Z) (c : Z) (i : Z) : option Z :=
  match s with
  | [] => None
  | x :: r => if x =? c then Some i else index_of r c (i + 1)
  end.
Definition strchr (s : list Z) (c : Z) : option Z := index_of (s ++ [0]) (c mod 256) 0.

(** /repo/src/EnginePl/atom.c:113-114 "abfnrtv" *)
Definition escape_symbol : list Z := [97; 98; 102; 110; 114; 116; 118].
Definition escape_char : list Z := [7; 8; 12; 10; 13; 9; 11].

(** the static variables c_orig and c, and the stream *)
Record scan : Type := Scan { inp : list Z; c_orig : Z; cur : Z }.

Definition conv_if (e : env) (convert : bool) (c : Z) : Z := if convert then conv e c else c.

(** lexer_supp.c:117-133 Read_Next_Char *)
Definition Read_Next_Char (e : env) (convert : bool) (i : list Z) : scan :=
  match i with
  | [] => Scan [] (-1) (-1)
  | x :: r => Scan r x (conv_if e convert x)
  end.
(** c_type as set by Read_Next_Char *)
Definition ty (e : env) (c : Z) : ctype := if c =? -1 then C0 else char_type e c.

(** lexer_supp.c:97-108 Pl_Lexer_Peek_Char *)
Definition Peek_Char (e : env) (convert : bool) (i : list Z) : Z :=
  match i with [] => -1 | x :: _ => conv_if e convert x end.

(** Pl_Stream_Ungetc(c, pstm) *)
Definition unget (c : Z) (i : list Z) : list Z := if c =? -1 then i else c :: i.

(** lexer_supp.h:43 *)
Definition LEXER_BIG_BUFFER : Z := 1024 * 1024.
(** the token buffer, last character first; *s++ = c *)
Definition push (b : list Z) (c : Z) : outcome (list Z) :=
  if Z.of_nat (length b) <? LEXER_BIG_BUFFER then Ret (c :: b) else UB.
(** *s = '\0'; the name is the string in the buffer *)
Definition close (b : list Z) : outcome (list Z) :=
  if Z.of_nat (length b) <? LEXER_BIG_BUFFER then Ret (rev b) else UB.

(** do { *s++ = c; Read_Next_Char } while (p(c_type)), lexer_supp.c:190-196 and 348-353 *)
Fixpoint push_while (e : env) (p : ctype -> bool) (i : list Z) (c : Z) (b : list Z)
  : outcome (list Z * scan) :=
  do b <- push b c;
  match i with
  | [] => Ret (b, Scan [] (-1) (-1))
  | x :: r => if p (ty e (conv e x)) then push_while e p r (conv e x) b
              else Ret (b, Scan r x (conv e x))
  end.
(** while (p(c_type)) { *s++ = c; Read_Next_Char } *)
Definition while_push (e : env) (p : ctype -> bool) (s : scan) (b : list Z) : outcome (list Z * scan) :=
  if p (ty e (cur s)) then push_while e p (inp s) (cur s) b else Ret (b, s).
(** while (strchr(f, c)) { *p++ = c; Read_Next_Char }, lexer_supp.c:436-441 *)
Fixpoint strchr_push (e : env) (f : list Z) (i : list Z) (co c : Z) (b : list Z) : outcome (list Z * scan) :=
  match strchr f c with
  | None => Ret (b, Scan i co c)
  | Some _ =>
    do b <- push b c;
    match i with
    | [] => Ret (b, Scan [] (-1) (-1))
    | x :: r => strchr_push e f r x (conv e x) b
    end
  end.

Definition INT_MIN := - 2 ^ 31.
Definition INT_MAX := 2 ^ 31 - 1.
(** while ((p = strchr(f, c))) { ... x = x * radix + i; Read_Next_Char }, lexer_supp.c:699-706 *)
Fixpoint radix_loop (e : env) (convert : bool) (f : list Z) (radix : Z) (i : list Z) (co c x : Z)
  : outcome (Z * scan) :=
  match strchr f c with
  | None => Ret (x, Scan i co c)
  | Some k =>
    let k := if 16 <=? k then k - 6 else k in
    let x := x * radix + k in
    if (INT_MIN <=? x) && (x <=? INT_MAX) then
      match i with
      | [] => Ret (x, Scan [] (-1) (-1))
      | y :: r => radix_loop e convert f radix r y (conv_if e convert y) x
      end
    else UB
  end.
(** while(c != '\\' && c != c0 && c != EOF && c != '\n') Read_Next_Char, lexer_supp.c:735-736 *)
Fixpoint pump (e : env) (convert : bool) (c0 : Z) (i : list Z) (co c : Z) : scan :=
  if (c =? 92) || (c =? c0) || (c =? -1) || (c =? 10) then Scan i co c
  else match i with
       | [] => Scan [] (-1) (-1)
       | x :: r => pump e convert c0 r x (conv_if e convert x)
       end.

(** atom.h:85 *)
Definition Is_Valid_Code (c : Z) : bool := (1 <=? c) && (c <? 256).
Definition hex_digits : list Z :=
  [48; 49; 50; 51; 52; 53; 54; 55; 56; 57; 97; 98; 99; 100; 101; 102; 65; 66; 67; 68; 69; 70].
Definition oct_digits : list Z := [48; 49; 50; 51; 52; 53; 54; 55].
Definition bin_digits : list Z := [48; 49].

(** the result of Lexer_Quoted_Char: a character, or -1 ... -6 *)
Inductive qchar : Type :=
| QChar (c : Z) | QClose | QSkip | QEof | QNewline | QTab | QError.

(** result, err_msg != NULL, scanner state *)
Definition qres : Type := qchar * bool * scan.

(** if (err_msg == NULL) { Unget_Last_Char; ... err_msg = "..."; } *)
Definition err_unget (err : bool) (s : scan) : scan :=
  if err then s else Scan (unget (c_orig s) (inp s)) (c_orig s) (cur s).

(** lexer_supp.c:610-754 Lexer_Quoted_Char *)
Definition Lexer_Quoted_Char (e : env) (convert : bool) (c0 : Z) (no_escape err : bool) (i : list Z)
  : outcome qres :=
  let s := Read_Next_Char e convert i in
  if cur s =? c0 then
    if Peek_Char e convert (inp s) =? c0 then
      let s := Read_Next_Char e convert (inp s) in Ret (QChar (cur s), err, s)
    else Ret (QClose, err, s)
  else if cur s =? -1 then Ret (QEof, true, err_unget err s)
  else if cur s =? 10 then Ret (QNewline, true, err_unget err s)
  else if cur s =? 9 then Ret (QTab, true, err_unget err s)
  else if negb (cur s =? 92) || no_escape then Ret (QChar (cur s), err, s)
  else
    let s := Read_Next_Char e convert (inp s) in
    let c := cur s in
    if c =? 10 then Ret (QSkip, err, s)
    else match strchr [92; 39; 34; 96] c with
    | Some _ => Ret (QChar c, err, s)
    | None =>
      match strchr escape_symbol c with
      | Some k => Ret (QChar (nth (Z.to_nat k) escape_char 0), err, s)
      | None =>
        if negb (strict_iso e) && (c =? 115) then Ret (QChar 32, err, s)
        else if negb (strict_iso e) && (c =? 101) then Ret (QChar 27, err, s)
        else if (c =? 120) || ((48 <=? c) && (c <=? 55)) then
          let radix := if c =? 120 then 16 else 8 in
          let f := if c =? 120 then hex_digits else oct_digits in
          let x := if c =? 120 then 0 else c - 48 in
          let s := Read_Next_Char e convert (inp s) in
          do r <- radix_loop e convert f radix (inp s) (c_orig s) (cur s) x;
          let (x, s) := r in
          if Is_Valid_Code x && (cur s =? 92) then Ret (QChar x, err, s)
          else
            let s := pump e convert c0 (inp s) (c_orig s) (cur s) in
            Ret (QError, true,
                 if cur s =? c0 then Scan (unget (c_orig s) (inp s)) (c_orig s) (cur s) else s)
        else Ret (QError, true, s)
      end
    end.

(** lexer_supp.h:55-68 *)
Inductive token : Type :=
| TokVar (s : list Z)
| TokInt (n : Z)
| TokFloat (s : list Z)              (* the text given to sscanf *)
| TokName (s : list Z) (quoted : bool)
| TokString (s : list Z)
| TokBack (s : list Z)
| TokPunct (c : Z)
| TokOpen                            (* TOKEN_IMMEDIAT_OPEN *)
| TokStop                            (* TOKEN_FULL_STOP *)
| TokEof
| TokExt (c : Z).

(** pl_token, err_msg != NULL, what remains in the stream *)
Definition lexed : Type := token * bool * list Z.

(** lexer_supp.c:534-573, the loop of Lexer_Quoted; [mk] makes the token.  After an error
    the function sets the buffer and leaves; err_msg is then set (line 579). *)
Fixpoint quoted_loop (fuel : nat) (e : env) (convert : bool) (c0 : Z) (no_escape : bool)
    (mk : list Z -> token) (err found : bool) (i : list Z) (b : list Z) : outcome lexed :=
  match fuel with
  | O => NoFuel
  | S fuel =>
    do r <- Lexer_Quoted_Char e convert c0 no_escape err i;
    match r with
    | (QClose, err, s) => do n <- close b; Ret (mk n, err, inp s)
    | (QSkip, err, s) => quoted_loop fuel e convert c0 no_escape mk err found (inp s) b
    | (QEof, err, s) | (QNewline, err, s) => do _ <- close b; Ret (TokStop, err, inp s)
    | (QTab, err, s) | (QError, err, s) =>
      quoted_loop fuel e convert c0 no_escape mk err true (inp s) b
    | (QChar c, err, s) =>
      if found then quoted_loop fuel e convert c0 no_escape mk err found (inp s) b
      else do b <- push b c; quoted_loop fuel e convert c0 no_escape mk err found (inp s) b
    end
  end.

(** lexer_supp.c:507-601 Lexer_Quoted; [co], [c]: c_orig and c at entry.  Each turn of the loop but one (the
    first error) reads a character. *)
Definition Lexer_Quoted (e : env) (co c : Z) (i : list Z) : outcome lexed :=
  let convert := negb (co =? 39) in
  let '(mk, no_escape) :=
    match ty e c with
    | QT => (fun s => TokName s true, false)
    | DQ => (TokString, dq_no_escape e)
    | _ => (TokBack, bq_no_escape e)
    end in
  quoted_loop (S (S (length i))) e convert c no_escape mk false false i [].

(** Str_To_PlLong(s, &p, base), pl_long.h:117 (strtol, 64 bits): s only has digits of
    this base *)
Definition digit_value (c : Z) : Z :=
  if c <=? 57 then c - 48 else if c <=? 70 then c - 55 else c - 87.
Fixpoint digits_value (base x : Z) (s : list Z) : Z :=
  match s with [] => x | c :: r => digits_value base (x * base + digit_value c) r end.
Definition strtol (base : Z) (s : list Z) : Z := Z.min (digits_value base 0 s) (2 ^ 63 - 1).

Definition isdigit (c : Z) : bool := (48 <=? c) && (c <=? 57).

(** lexer_supp.c:460-493, is_a_float; [b] is the buffer up to the '.' *)
Definition lexer_float (e : env) (i : list Z) (b : list Z) : outcome lexed :=
  do b <- push b 46;
  do r <- while_push e is_DI (Read_Next_Char e true i) b;
  let (b, s) := r in
  if (cur s =? 101) || (cur s =? 69) then
    let co0 := c_orig s in
    let s := Read_Next_Char e true (inp s) in
    if negb (is_DI (ty e (cur s)) ||
             (((cur s =? 43) || (cur s =? 45)) && isdigit (Peek_Char e true (inp s)))) then
      do n <- close b; Ret (TokFloat n, false, unget co0 (unget (c_orig s) (inp s)))
    else
      do b <- push b 101;
      do b <- push b (cur s);
      do r <- while_push e is_DI (Read_Next_Char e true (inp s)) b;
      let (b, s) := r in
      do n <- close b; Ret (TokFloat n, false, unget (c_orig s) (inp s))
  else do n <- close b; Ret (TokFloat n, false, unget (c_orig s) (inp s)).

(** lexer_supp.c:343-498 Lexer_Number with integer_only = FALSE; [c] is the first digit *)
Definition Lexer_Number (e : env) (c : Z) (i : list Z) : outcome lexed :=
  do r <- push_while e is_DI i c [];
  let (b, s) := r in
  if (cur s =? 46) && isdigit (Peek_Char e true (inp s)) then lexer_float e (inp s) b
  else
    do n <- close b;
    let x := strtol 10 n in
    if negb (Z.of_nat (length b) =? 1) || negb (x =? 0) ||
       match strchr [39; 98; 111; 120] (cur s) with None => true | Some _ => false end then
      Ret (TokInt x, false, unget (c_orig s) (inp s))
    else if cur s =? 39 then
      do q <- Lexer_Quoted_Char e true 39 false false (inp s);
      match q with
      | (QClose, err, s) =>
        if strict_iso e then
          if void_op e then Ret (TokInt x, false, 39 :: 39 :: inp s)
          else Ret (TokInt x, true, inp s)
        else Ret (TokInt 39, err, inp s)
      | (QSkip, err, s) => Ret (TokInt x, err, 39 :: 92 :: unget (c_orig s) (inp s))
      | (QChar c, err, s) => Ret (TokInt c, err, inp s)
      | (_, _, s) => Ret (TokStop, true, unget (c_orig s) (inp s))
      end
    else
      let radix_c := cur s in
      let base := if radix_c =? 98 then 2 else if radix_c =? 111 then 8 else 16 in
      let f := if radix_c =? 98 then bin_digits else if radix_c =? 111 then oct_digits else hex_digits in
      let s := Read_Next_Char e true (inp s) in
      do r <- strchr_push e f (inp s) (c_orig s) (cur s) [];
      let (b, s) := r in
      do n <- close b;
      match n with
      | [] => Ret (TokInt x, false, radix_c :: unget (c_orig s) (inp s))
      | _ => Ret (TokInt (strtol base n), false, unget (c_orig s) (inp s))
      end.

(** lexer_supp.c:164-170: skip the layout; layout_before, then the first other character *)
Fixpoint skip_layout (e : env) (i : list Z) (before : bool) : bool * scan :=
  match i with
  | [] => (before, Scan [] (-1) (-1))
  | x :: r => if is_LA (ty e (conv e x)) then skip_layout e r true else (before, Scan r x (conv e x))
  end.

(** lexer_supp.c:227-234: do { c0 = c; Read_Next_Char } while (c != EOF && (c0 != '*' || c != '/')),
    entered after the test for EOF; gives what follows the comment, None on EOF *)
Fixpoint skip_comment (e : env) (i : list Z) (c : Z) : option (list Z) :=
  match i with
  | [] => None
  | x :: r => if (c =? 42) && (conv e x =? 47) then Some r else skip_comment e r (conv e x)
  end.
(** lexer_supp.c:262-264 *)
Fixpoint skip_line (e : env) (i : list Z) : list Z :=
  match i with [] => [] | x :: r => if conv e x =? 10 then r else skip_line e r end.

(** lexer_supp.c:151-334 Pl_Lexer_Token *)
Fixpoint lexer_token (fuel : nat) (e : env) (comma_is_punct : bool) (before : bool) (i : list Z)
  : outcome lexed :=
  match fuel with
  | O => NoFuel
  | S fuel =>
    let '(before, s) := skip_layout e i before in
    let c := cur s in
    let i := inp s in
    if c =? -1 then Ret (TokEof, false, i)
    else match ty e c with
    | SL | UL | CL =>
      do r <- push_while e alnum i c [];
      let (b, s') := r in
      do n <- close b;
      Ret (match ty e c with SL => TokName n false | _ => TokVar n end, false,
           unget (c_orig s') (inp s'))
    | DI => Lexer_Number e c i
    | QT | DQ | BQ => Lexer_Quoted e (c_orig s) c i
    | GR =>
      let s' := Read_Next_Char e true i in
      if (c =? 46) && ((cur s' =? -1) || layout_or_comment (ty e (cur s'))) then
        Ret (TokStop, false, unget (c_orig s') (inp s'))
      else if (c =? 47) && (cur s' =? 42) then
        match inp s' with
        | [] => Ret (TokEof, true, [])
        | x :: r =>
          match skip_comment e r (conv e x) with
          | None => Ret (TokEof, true, [])
          | Some i => lexer_token fuel e comma_is_punct true i
          end
        end
      else
        do b <- push [] c;
        do r <- while_push e is_GR s' b;
        let (b, s') := r in
        do n <- close b;
        Ret (TokName n false, false, unget (c_orig s') (inp s'))
    | CM => lexer_token fuel e comma_is_punct true (skip_line e i)
    | PC => if (c =? 40) && negb before then Ret (TokOpen, false, i)
            else Ret (TokPunct c, false, i)
    | SC => if (c =? 44) && comma_is_punct then Ret (TokPunct c, false, i)
            else Ret (TokName [c] false, false, i)
    | EX => Ret (TokExt c, false, i)
    | LA | C0 => UB                (* not reached: layout is skipped and c is not EOF *)
    end
  end.
Definition Lexer_Token (e : env) (comma_is_punct : bool) (i : list Z) : outcome lexed :=
  lexer_token (S (length i)) e comma_is_punct false i.
