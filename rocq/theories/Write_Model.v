(** Writing atoms, integers and terms.  /repo/src/BipsPl/write_supp.c and
    /repo/src/EnginePl/atom.c:236-327 (the properties of an atom).

    A function gives the text it puts on the stream and the new values of pl_last_writing
    and last_is_space.  Not modelled: operators (ignore_op is TRUE, so last_prefix_op stays
    W_NO_PREFIX_OP), the limit on the depth, portray/1, '$VAR'(N) and '$VARNAME'(X)
    (number_vars and name_vars are FALSE), floats and finite domain variables. *)
Require Import ZArith List Bool.
Require Import Verif.Heap_Model Verif.Lex_Model.
Import ListNotations.
Open Scope Z_scope.

(** atom.h:66-70, AtomProp atom.h:97-105; prop.length has 16 bits *)
Inductive atype : Type := IDENTIFIER_ATOM | GRAPHIC_ATOM | SOLO_ATOM | OTHER_ATOM.
Record aprop : Type := AProp { p_length : Z; p_type : atype; needs_quote : bool; needs_scan : bool }.

Definition is_SL (t : ctype) : bool := match t with SL => true | _ => false end.
Definition is_SC (t : ctype) : bool := match t with SC => true | _ => false end.
Definition is_QT (t : ctype) : bool := match t with QT => true | _ => false end.
(** c_type & (QT | EX | LA) *)
Definition qt_ex_la (t : ctype) : bool := match t with QT | EX | LA => true | _ => false end.

(** atom.c:258-322, in Add_Atom; [s]: the characters of the name, without the final 0.
    The two tests of len >= 2 read name[1]. *)
Definition nonempty (s : list Z) : bool := match s with [] => false | _ => true end.
Definition atom_prop (e : env) (s : list Z) : aprop :=
  let len := Z.of_nat (length s) in
  let scan := existsb (fun c => (negb (c =? 32) && qt_ex_la (char_type e c)) || (c =? 92)) s in
  let identifier := nonempty s && forallb (fun c => alnum (char_type e c)) s
                    && is_SL (char_type e (hd 0 s)) in
  let graphic := nonempty s && forallb (fun c => is_GR (char_type e c)) s in
  let '(t, q) :=
    if identifier then (IDENTIFIER_ATOM, false)
    else if graphic then
      (GRAPHIC_ATOM,
       ((len =? 1) && (hd 0 s =? 46)) || ((len =? 1) && (hd 0 s =? 37)) ||
       ((2 <=? len) && (hd 0 s =? 47) && (nth 1 s 0 =? 42)))
    else if (len =? 1) && is_SC (char_type e (hd 0 s)) then (SOLO_ATOM, hd 0 s =? 44)
    else (OTHER_ATOM,
          scan || negb ((len =? 2) && (((hd 0 s =? 91) && (nth 1 s 0 =? 93)) ||
                                       ((hd 0 s =? 123) && (nth 1 s 0 =? 125)))))
  in AProp (len mod 2 ^ 16) t q scan.

(** write_supp.c:122-127 *)
Inductive wkind : Type := W_NOTHING | W_NUMBER | W_NUMBER_0 | W_IDENTIFIER | W_QUOTED | W_GRAPHIC.
(** pl_last_writing, last_is_space *)
Record wst : Type := Wst { last_writing : wkind; last_is_space : bool }.
(** a piece of the writer: its text and the new state *)
Definition wr : Type := wst -> list Z * wst.
Definition seqw (f g : wr) : wr := fun s =>
  let (t1, s) := f s in let (t2, s) := g s in (t1 ++ t2, s).
(** pl_last_writing = w *)
Definition set_last (w : wkind) : wr := fun s => ([], Wst w (last_is_space s)).

(** write_supp.c:340-349 *)
Definition Out_Space : wr := fun s =>
  (if last_is_space s then [] else [32], Wst W_NOTHING true).

(** write_supp.c:402-451; [space]: lines 407-439 *)
Definition space_needed (e : env) (w : wkind) (c : Z) : bool :=
  let t := char_type e c in
  match w with
  | W_NUMBER_0 => is_QT t || alnum t || (c =? 46)
  | W_NUMBER => alnum t || (c =? 46)
  | W_IDENTIFIER => alnum t || (c =? 91) || (c =? 123)
  | W_QUOTED => is_QT t
  | W_GRAPHIC => is_GR t
  | W_NOTHING => false
  end.
Definition Emit_Space_If_Needed (e : env) (c : Z) : wr := fun s =>
  if space_needed e (last_writing s) c then seqw Out_Space (set_last W_NOTHING) s
  else set_last W_NOTHING s.

(** Pl_Stream_Putc / Pl_Stream_Puts; last_is_space = FALSE *)
Definition puts (t : list Z) : wr := fun s => (t, Wst (last_writing s) false).
(** write_supp.c:358-368 and 377-393 *)
Definition Out_Char (e : env) (c : Z) : wr := seqw (Emit_Space_If_Needed e c) (puts [c]).
Definition Out_String (e : env) (t : list Z) : wr := seqw (Emit_Space_If_Needed e (hd 0 t)) (puts t).

(** isprint; [pr] for 128..255 (locale) *)
Definition isprint (pr : Z -> bool) (c : Z) : bool :=
  if c <? 128 then (32 <=? c) && (c <=? 126) else pr c.

(** sprintf("\\x%x\\", c), 1 <= c < 256 *)
Definition hex_digit (d : Z) : Z := if d <? 10 then 48 + d else 87 + d.
Definition hex_escape (c : Z) : list Z :=
  [92; 120] ++ (if c <? 16 then [hex_digit c] else [hex_digit (c / 16); hex_digit (c mod 16)]) ++ [92].

(** write_supp.c:847-868, the characters of a quoted atom which needs_scan *)
Definition show_char (e : env) (pr : Z -> bool) (c : Z) : wr :=
  match strchr escape_char c with
  | Some k => seqw (Out_Char e 92) (Out_Char e (nth (Z.to_nat k) escape_symbol 0))
  | None =>
    if (c =? 39) || (c =? 92) then seqw (Out_Char e c) (Out_Char e c)
    else if negb (isprint pr c) then Out_String e (hex_escape c)
    else Out_Char e c
  end.
Fixpoint show_chars (e : env) (pr : Z -> bool) (s : list Z) : wr :=
  match s with
  | [] => fun st => ([], st)
  | c :: r => seqw (show_char e pr c) (show_chars e pr r)
  end.

(** write_supp.c:806-840: what Show_Atom stores in pl_last_writing after an unquoted atom *)
Definition after_unquoted (e : env) (p : aprop) (s : list Z) : wkind :=
  match p_type p with
  | IDENTIFIER_ATOM => W_IDENTIFIER
  | GRAPHIC_ATOM => W_GRAPHIC
  | SOLO_ATOM => W_NOTHING
  | OTHER_ATOM =>
    if p_length p =? 0 then W_NOTHING
    else let c := nth (Z.to_nat (p_length p - 1)) s 0 in
         let t := char_type e c in
         if alnum t then W_IDENTIFIER
         else if c =? 39 then W_QUOTED
         else if is_GR t then W_GRAPHIC
         else W_NOTHING
  end.

(** write_supp.c:789-879 Show_Atom in the context GENERAL_TERM (no bracket) *)
Definition Show_Atom (e : env) (pr : Z -> bool) (quoted : bool) (s : list Z) : wr :=
  let p := atom_prop e s in
  if negb quoted || negb (needs_quote p) then
    seqw (Out_String e s) (set_last (after_unquoted e p s))
  else
    seqw (Out_Char e 39)
   (seqw (if needs_scan p then show_chars e pr s else Out_String e s)
   (seqw (Out_Char e 39) (set_last W_QUOTED))).

(** sprintf("%ld", n) *)
Fixpoint dec_digits (fuel : nat) (n : Z) (acc : list Z) : list Z :=
  match fuel with
  | O => acc
  | S fuel => let acc := (48 + n mod 10) :: acc in
              if n <? 10 then acc else dec_digits fuel (n / 10) acc
  end.
Definition dec (n : Z) : list Z :=
  if n <? 0 then 45 :: dec_digits 20 (- n) [] else dec_digits 20 n [].

(** write_supp.c:888-942 Show_Integer, Show_Number_Str (OP_MINUS_BRACKETS_MIXED, line 92-94) *)
Definition Show_Integer (e : env) (n : Z) : wr :=
  seqw (Out_String e (dec n))
       (set_last (match dec n with [48] => W_NUMBER_0 | _ => W_NUMBER end)).

(** write_supp.c:746-755 Show_Global_Var; [n]: the offset of the variable *)
Definition Show_Var (e : env) (n : Z) : wr :=
  seqw (Out_String e (95 :: dec n)) (set_last W_IDENTIFIER).

(** SHOW_COMMA, write_supp.c:223 *)
Definition SHOW_COMMA (e : env) (space_args : bool) : wr :=
  if space_args then seqw (Out_Char e 44) Out_Space else Out_Char e 44.

(** a term; atoms are given by their names, variables by their offset *)
Inductive wterm : Type :=
| WVar (n : Z)
| WAtom (s : list Z)
| WInt (n : Z)
| WList (a b : wterm)
| WStc (f : list Z) (l : list wterm).

(** write_supp.c:544-617 Show_Term and 1314-1355 (Show_Structure, functional notation), with
    quoted = TRUE, ignore_op = TRUE *)
Fixpoint Show_Term (e : env) (pr : Z -> bool) (space_args : bool) (t : wterm) : wr :=
  match t with
  | WVar n => Show_Var e n
  | WAtom s => Show_Atom e pr true s
  | WInt n => Show_Integer e n
  | WList a b =>
    seqw (Out_String e [39; 46; 39; 40])
   (seqw (Show_Term e pr space_args a)
   (seqw (SHOW_COMMA e space_args)
   (seqw (Show_Term e pr space_args b)
         (Out_Char e 41))))
  | WStc f l =>
    seqw (Show_Atom e pr true f)
   (seqw (Out_Char e 40)
   (seqw ((fix show_args (l : list wterm) : wr :=
             match l with
             | [] => fun s => ([], s)
             | [a] => Show_Term e pr space_args a
             | a :: l => seqw (Show_Term e pr space_args a)
                              (seqw (SHOW_COMMA e space_args) (show_args l))
             end) l)
         (Out_Char e 41)))
  end.

(** write_supp.c:273-296 Pl_Write_Term *)
Definition Write_Term (e : env) (pr : Z -> bool) (space_args : bool) (t : wterm) : list Z * wst :=
  Show_Term e pr space_args t (Wst W_NOTHING false).

(** write_supp.c:460-469 Pl_Write_A_Full_Stop *)
Definition Write_A_Full_Stop (e : env) : wr :=
  fun s => seqw (Out_Char e 46) (Out_Char e 10)
             (match last_writing s with
              | W_NUMBER_0 | W_NUMBER => Wst W_NOTHING (last_is_space s)
              | _ => s
              end).
