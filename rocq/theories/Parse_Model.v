(** The parser.  /repo/src/BipsPl/parser_supp.c:121-758.

    The terms are built by Pl_Put_... in the heap (C10, C11); here they are trees, an atom is
    its name and a variable its index in pl_parse_dico_var.  The table of atoms (C50), the
    positions for error messages and the size of the C stack are not modelled.  A float is
    its text and a sign.  A syntax error is a longjmp to Pl_Read_Term. *)
Require Import ZArith List Bool.
Require Import Verif.Heap_Model Verif.Lex_Model.
Import ListNotations.
Open Scope Z_scope.

Inductive pterm : Type :=
| PVar (i : nat)
| PAtom (s : list Z)
| PInt (n : Z)
| PFloat (neg : bool) (s : list Z)
| PList (a b : pterm)
| PStc (f : list Z) (l : list pterm).

(** oper.h: the type of an operator; the fields prec, left, right of OperInf *)
Inductive optype : Type := PREFIX | INFIX | POSTFIX.
Record opinf : Type := OpInf { o_prec : Z; o_left : Z; o_right : Z }.
(** the values of the flags double_quotes and back_quotes (PF_QUOT_AS_...) *)
Inductive qmode : Type := AS_ATOM | AS_CODES | AS_CHARS.
(** what the parser takes from outside: the scanner's environment, Pl_Lookup_Oper, the flags *)
Record penv : Type := PEnv {
  lx : env;
  oper : list Z -> optype -> option opinf;
  double_quotes : qmode;
  back_quotes : qmode }.

(** parser_supp.c:58-60 *)
Inductive context : Type := GENERAL_TERM | TRYING_PREFIX | INSIDE_ANY_OP.
(** /repo/src/EnginePl/oper.h:43-44, pl_params.h (MAX_ARITY), b_params.h:39,41 *)
Definition MAX_PREC := 1200.
Definition MAX_ARG_OF_FUNCTOR_PREC := 999.
Definition MAX_ARITY := 255.
Definition MAX_VAR_NAME_LENGTH := 1024.
Definition MAX_VAR_IN_TERM := 1024 * 1024.
(** wam_inst.h:150-151 *)
Definition INT_GREATEST_VALUE := 2 ^ 60 - 1.
Definition INT_LOWEST_VALUE := - 2 ^ 60.

(** the stream, unget_tok if tok_present, the names of pl_parse_dico_var (last first) *)
Record pst : Type := Pst { p_inp : list Z; p_unget : option token; p_dico : list (list Z) }.

Inductive pres (A : Type) : Type := POk (a : A) (s : pst) | PErr.
Arguments POk {A} a s.
Arguments PErr {A}.
Definition pbind {A B : Type} (o : outcome (pres A)) (k : A -> pst -> outcome (pres B)) : outcome (pres B) :=
  match o with
  | Ret (POk a s) => k a s
  | Ret PErr => Ret PErr
  | UB => UB
  | NoFuel => NoFuel
  end.
Notation "'get' x , s <- o ; k" := (pbind o (fun x s => k))
  (at level 60, x name, s name, o at level 100, k at level 200, right associativity).
Definition Parse_Error {A : Type} : outcome (pres A) := Ret PErr.

(** the string in pl_token.name *)
Fixpoint cstr (s : list Z) : list Z :=
  match s with [] => [] | c :: r => if c =? 0 then [] else c :: cstr r end.
(** strcmp(a, b) == 0, also name[0] == .. && name[1] == '\0' *)
Definition str_eqb (a b : list Z) : bool := if list_eq_dec Z.eq_dec a b then true else false.

(** 192-221 *)
Definition Read_Next_Token (P : penv) (comma_is_punct : bool) (s : pst) : outcome (pres token) :=
  match p_unget s with
  | Some t =>
    let s := Pst (p_inp s) None (p_dico s) in
    match t with
    | TokName n false =>
      Ret (POk (if comma_is_punct && str_eqb (cstr n) [44] then TokPunct 44 else t) s)
    | TokPunct c =>
      Ret (POk (if negb comma_is_punct && (c =? 44) then TokName [44] false else t) s)
    | _ => Ret (POk t s)
    end
  | None =>
    do r <- Lexer_Token (lx P) comma_is_punct (p_inp s);
    match r with
    | (t, false, i) => Ret (POk t (Pst i None (p_dico s)))
    | (_, true, _) => Parse_Error
    end
  end.

(** 130-136 *)
Definition Unget_Token (t : token) (s : pst) : pst := Pst (p_inp s) (Some t) (p_dico s).

(** 727-758; the second result of the search is the index *)
Fixpoint lookup_var (d : list (list Z)) (n : list Z) : option nat :=
  match d with
  | [] => None
  | x :: r => if str_eqb n x then Some (length r) else lookup_var r n
  end.
Definition Lookup_In_Dico_Var (n : list Z) (s : pst) : outcome (pres nat) :=
  let new :=
    if MAX_VAR_IN_TERM <=? Z.of_nat (length (p_dico s)) then Parse_Error
    else if MAX_VAR_NAME_LENGTH <=? Z.of_nat (length n) then UB     (* strcpy *)
    else Ret (POk (length (p_dico s)) (Pst (p_inp s) (p_unget s) (n :: p_dico s))) in
  if str_eqb n [95] then new
  else match lookup_var (p_dico s) n with Some i => Ret (POk i s) | None => new end.

(** 698-718 *)
Definition Create_Structure (f : list Z) (l : list pterm) : pterm :=
  match l with
  | [a; b] => if str_eqb f [46] then PList a b else PStc f l
  | _ => PStc f l
  end.

(** 148-165 with raise_error *)
Definition check_int (n : Z) : bool := (INT_LOWEST_VALUE <=? n) && (n <=? INT_GREATEST_VALUE).

(** 362-392: a string as a list *)
Fixpoint string_list (codes : bool) (s : list Z) : pterm :=
  match s with
  | [] => PAtom [91; 93]
  | c :: r => PList (if codes then PInt c else PAtom [c]) (string_list codes r)
  end.

Definition is_some {A : Type} (o : option A) : bool := match o with Some _ => true | None => false end.
Definition is_op (P : penv) (n : list Z) : bool :=
  is_some (oper P n PREFIX) || is_some (oper P n INFIX) || is_some (oper P n POSTFIX).
Definition general (c : context) : bool := match c with GENERAL_TERM => true | _ => false end.
Definition trying (c : context) : bool := match c with TRYING_PREFIX => true | _ => false end.

(** None is NOT_A_WAM_WORD *)
Definition result : Type := outcome (pres (option pterm)).

(** 325-549 Parse_Term; [a_name]: from the label a_name, with the name and pl_token.quoted;
    [parse_loop]: from line 492.  558-584 Parse_Args_Of_Functor ([l]: w, last first),
    593-628 Parse_Bracketed_Term, 637-688 Parse_List. *)
Fixpoint Parse_Term (fuel : nat) (P : penv) (cur_prec : Z) (ctx : context) (cp : bool) (s : pst) {struct fuel} : result :=
  match fuel with
  | O => NoFuel
  | S fuel =>
    get t, s <- Read_Next_Token P (negb (trying ctx) || cp) s;
    match t with
    | TokVar n =>
      get i, s <- Lookup_In_Dico_Var n s;
      parse_loop fuel P cur_prec cp 0 false (PVar i) s
    | TokInt n => if check_int n then parse_loop fuel P cur_prec cp 0 false (PInt n) s else Parse_Error
    | TokFloat x => parse_loop fuel P cur_prec cp 0 false (PFloat false x) s
    | TokString x | TokBack x =>
      let x := cstr x in
      match (match t with TokString _ => double_quotes P | _ => back_quotes P end) with
      | AS_ATOM => a_name fuel P cur_prec ctx cp x false s
      | AS_CODES => parse_loop fuel P cur_prec cp 0 false (string_list true x) s
      | AS_CHARS => parse_loop fuel P cur_prec cp 0 false (string_list false x) s
      end
    | TokOpen | TokPunct _ =>
      let c := match t with TokPunct c => c | _ => 40 end in
      match strchr [40; 123; 91] c with
      | None => Ret (POk None (Unget_Token t s))
      | Some _ =>
        get r, s <- parse_bracketed fuel P c s;
        match r with
        | None => a_name fuel P cur_prec ctx cp (if c =? 123 then [123; 125] else [91; 93]) false s
        | Some a => parse_loop fuel P cur_prec cp 0 false a s
        end
      end
    | TokName n q => a_name fuel P cur_prec ctx cp (cstr n) q s
    | TokEof | TokStop | TokExt _ => Ret (POk None (Unget_Token t s))
    end
  end
with a_name (fuel : nat) (P : penv) (cur_prec : Z) (ctx : context) (cp : bool) (n : list Z) (quoted : bool) (s : pst) {struct fuel} : result :=
  match fuel with
  | O => NoFuel
  | S fuel =>
    if (Peek_Char (lx P) true (p_inp s) =? 40) && (negb (str_eqb n [44]) || quoted) then
      get t, s <- Read_Next_Token P false s;
      get l, s <- parse_args fuel P [] s;
      parse_loop fuel P cur_prec cp 0 false (Create_Structure n l) s
    else
      (* maybe a prefix operator *)
      let prefix (s : pst) : result :=
        let name (left : Z) (s : pst) : result :=
          if is_op P n && negb (general ctx) then Parse_Error
          else parse_loop fuel P cur_prec cp left (is_op P n) (PAtom n) s in
        match oper P n PREFIX with
        | Some o =>
          if o_prec o <=? cur_prec then
            get r, s <- Parse_Term fuel P (o_right o) TRYING_PREFIX cp s;
            match r with
            | Some a => parse_loop fuel P cur_prec cp (o_prec o) false (Create_Structure n [a]) s
            | None => if negb (general ctx) then Parse_Error else name (o_prec o) s
            end
          else name 0 s
        | None => name 0 s
        end in
      if str_eqb n [45] then
        get t, s <- Read_Next_Token P false s;
        match t with
        | TokInt i => if check_int (- i) then parse_loop fuel P cur_prec cp 0 false (PInt (- i)) s else Parse_Error
        | TokFloat x => parse_loop fuel P cur_prec cp 0 false (PFloat true x) s
        | _ => prefix (Unget_Token t s)
        end
      else prefix s
  end
with parse_loop (fuel : nat) (P : penv) (cur_prec : Z) (cp : bool) (cur_left : Z) (left_is_op : bool) (a : pterm) (s : pst) {struct fuel} : result :=
  match fuel with
  | O => NoFuel
  | S fuel =>
    get t, s <- Read_Next_Token P cp s;
    let bar :=
      match t with
      | TokPunct 124 =>
        match oper P [124] INFIX with
        | Some o => if (1000 <? o_prec o) && (o_prec o <=? cur_prec) then Some o else None
        | None => None
        end
      | _ => None
      end in
    let op :=                                   (* atom, oper, infix_op *)
      match bar with
      | Some o => Some ([124], o, true)
      | None =>
        match t with
        | TokName n _ =>
          match oper P (cstr n) INFIX with
          | Some o => Some (cstr n, o, true)
          | None => match oper P (cstr n) POSTFIX with Some o => Some (cstr n, o, false) | None => None end
          end
        | _ => None
        end
      end in
    match op with
    | None => Ret (POk (Some a) (Unget_Token t s))
    | Some (n, o, infix) =>
      if left_is_op then Parse_Error
      else if (cur_prec <? o_prec o) || (o_left o <? cur_left) then Ret (POk (Some a) (Unget_Token t s))
      else if infix then
        get r, s <- Parse_Term fuel P (o_right o) INSIDE_ANY_OP cp s;
        match r with
        | None => Parse_Error
        | Some b => parse_loop fuel P cur_prec cp (o_prec o) left_is_op (Create_Structure n [a; b]) s
        end
      else parse_loop fuel P cur_prec cp (o_prec o) left_is_op (Create_Structure n [a]) s
    end
  end
with parse_args (fuel : nat) (P : penv) (l : list pterm) (s : pst) {struct fuel} : outcome (pres (list pterm)) :=
  match fuel with
  | O => NoFuel
  | S fuel =>
    if MAX_ARITY <=? Z.of_nat (length l) then Parse_Error
    else
      get r, s <- Parse_Term fuel P MAX_ARG_OF_FUNCTOR_PREC GENERAL_TERM true s;
      match r with
      | None => Parse_Error
      | Some a =>
        get t, s <- Read_Next_Token P true s;
        match t with
        | TokPunct 44 => parse_args fuel P (a :: l) s
        | TokPunct 41 => Ret (POk (rev (a :: l)) s)
        | _ => Parse_Error
        end
      end
  end
with parse_bracketed (fuel : nat) (P : penv) (c : Z) (s : pst) {struct fuel} : result :=
  match fuel with
  | O => NoFuel
  | S fuel =>
    if c =? 40 then
      get r, s <- Parse_Term fuel P MAX_PREC GENERAL_TERM false s;
      match r with
      | None => Parse_Error
      | Some a =>
        get t, s <- Read_Next_Token P false s;
        match t with TokPunct 41 => Ret (POk (Some a) s) | _ => Parse_Error end
      end
    else if c =? 123 then
      get r, s <- Parse_Term fuel P MAX_PREC GENERAL_TERM false s;
      get t, s <- Read_Next_Token P false s;
      match t with
      | TokPunct 125 => Ret (POk (match r with Some a => Some (PStc [123; 125] [a]) | None => None end) s)
      | _ => Parse_Error
      end
    else if c =? 91 then parse_list fuel P true s
    else UB                             (* the end of the string "({[": term = 0 *)
  end
with parse_list (fuel : nat) (P : penv) (can_be_empty : bool) (s : pst) {struct fuel} : result :=
  match fuel with
  | O => NoFuel
  | S fuel =>
    get r, s <- Parse_Term fuel P MAX_ARG_OF_FUNCTOR_PREC GENERAL_TERM true s;
    get t, s <- Read_Next_Token P true s;
    match r with
    | None =>
      if can_be_empty then match t with TokPunct 93 => Ret (POk None s) | _ => Parse_Error end
      else Parse_Error
    | Some a =>
      match t with
      | TokPunct 44 =>
        get d, s <- parse_list fuel P false s;
        match d with Some d => Ret (POk (Some (PList a d)) s) | None => UB end
      | TokPunct 124 =>
        get d, s <- Parse_Term fuel P MAX_ARG_OF_FUNCTOR_PREC GENERAL_TERM false s;
        match d with
        | None => Parse_Error
        | Some d =>
          get t, s <- Read_Next_Token P true s;
          match t with TokPunct 93 => Ret (POk (Some (PList a d)) s) | _ => Parse_Error end
        end
      | TokPunct 93 => Ret (POk (Some (PList a (PAtom [91; 93]))) s)
      | _ => Parse_Error
      end
    end
  end.

(** the atom end_of_file *)
Definition end_of_file : list Z := [101; 110; 100; 95; 111; 102; 95; 102; 105; 108; 101].

(** 233-301 Pl_Read_Term; [dot]: PARSE_END_OF_TERM_DOT.  The result: the term, the names of its variables in the
    order of their indices and what remains in the stream; None on a syntax error *)
Definition Read_Term (fuel : nat) (P : penv) (dot : bool) (i : list Z)
  : outcome (option (pterm * list (list Z) * list Z)) :=
  let r :=
    get r, s <- Parse_Term fuel P MAX_PREC GENERAL_TERM false (Pst i None []);
    get t, s <- Read_Next_Token P false s;
    match r with
    | None => match t with TokEof => Ret (POk (PAtom end_of_file) s) | _ => Parse_Error end
    | Some a =>
      match t with
      | TokStop => if dot then Ret (POk a s) else Parse_Error
      | TokEof => if dot then Parse_Error else Ret (POk a s)
      | _ => Parse_Error
      end
    end in
  match r with
  | Ret (POk a s) => Ret (Some (a, rev (p_dico s), p_inp s))
  | Ret PErr => Ret None
  | UB => UB
  | NoFuel => NoFuel
  end.
