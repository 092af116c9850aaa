(** The atom table: /repo/src/EnginePl/atom.c.  Strings are lists of bytes 1..255 without
    the final NUL; [smem p] is the string at address [p], [None] if the memory is not (or no
    longer) allocated.  Of the properties of an atom only the length is kept. *)
Require Import ZArith List Bool.
Require Import Verif.Heap_Model.
Import ListNotations.
Open Scope Z_scope.

Definition str := list Z.
Definition str_eqb (a b : str) : bool := if list_eq_dec Z.eq_dec a b then true else false.

(** atom.h:97-116: the fields name (0 = NULL), hash and prop.length (a bit-field of 16 bits) *)
Record acell := Acell { aname : Z; ahash : Z; alen : Z }.
Definition bits16 (n : Z) : Z := n mod 2 ^ 16.
(** [atbl], [anb]: pl_atom_tbl, pl_nb_atom *)
Record astate := Astate { smem : Z -> option str; atbl : Z -> acell; anb : Z }.
Definition upd {A} (f : Z -> A) (a : Z) (v : A) : Z -> A := fun x => if x =? a then v else f x.

Section Atom.
(** Pl_Hash_Buffer (/repo/src/Tools/hash_fct.c), any function; pl_max_atom *)
Variable HB : str -> Z.
Variable max : Z.

(** unsigned (32 bits) to int *)
Definition to_int (x : Z) : Z := (x + 2 ^ 31) mod 2 ^ 32 - 2 ^ 31.
(** unsigned *)
Definition to_unsigned (x : Z) : Z := x mod 2 ^ 32.

(** atom.h:70 *)
Definition ATOM_NIL : Z := 256.
(** atom.c:435-456 (OPTIM_1_CHAR_ATOM is defined, atom.h:40) *)
Definition Hash_String (s : str) : Z :=
  match s with
  | [] => 0
  | [c] => c
  | _ => if str_eqb s [91; 93] then ATOM_NIL else to_unsigned (HB s)
  end.

(** reading pl_atom_tbl[i]: the table has [max] cells *)
Definition rd_cell (st : astate) (i : Z) : outcome acell :=
  if (0 <=? i) && (i <? max) then Ret (atbl st i) else UB.
(** strcmp of an atom name with [s] *)
Definition rd_str (st : astate) (p : Z) : outcome str :=
  match smem st p with Some s => Ret s | None => UB end.

(** atom.c:390-399 the while loop; [n] bounds the number of turns (one round at most).
    [None]: NULL *)
Fixpoint locate_loop (n : nat) (st : astate) (s : str) (hash i0 i : Z) : outcome (option Z) :=
  match n with
  | O => NoFuel
  | S n =>
    do c <- rd_cell st i;
    if aname c =? 0 then Ret (Some i)
    else
      do same <- (if ahash c =? hash then do t <- rd_str st (aname c); Ret (str_eqb t s) else Ret false);
      if same then Ret (Some i)
      else
        let i := i + 1 in
        let i := if i =? max then 0 else i in
        if i =? i0 then Ret None else locate_loop n st s hash i0 i
  end.
(** atom.c:379-423; [index] is an int *)
Definition Locate_Atom (st : astate) (s : str) (hash : Z) : outcome (option Z) :=
  let index := to_int (hash mod max) in
  locate_loop (Z.to_nat max) st s hash index index.

(** creation: an atom or the fatal error of Error_Table_Full (the process exits) *)
Inductive cres := Atom (i : Z) | TableFull.
(** atom.c:237-327; [p] is the address of the string [s]; [a] is what Strdup returns *)
Definition Add_Atom (st : astate) (p : Z) (s : str) (hash : Z) (patom : option Z) (allocate : bool) (a : Z) : outcome (astate * cres) :=
  match patom with
  | None => Ret (st, TableFull)
  | Some i =>
    do c <- rd_cell st i;
    if negb (aname c =? 0) then Ret (st, Atom i)
    else
      let '(mem, name) := if allocate then (upd (smem st) a (Some s), a) else (smem st, p) in
      Ret (Astate mem (upd (atbl st) i (Acell name hash (bits16 (Z.of_nat (length s))))) (anb st + 1), Atom i)
  end.
(** atom.c:201-208 Pl_Create_Allocate_Atom, atom.c:219-227 Pl_Create_Atom *)
Definition Create (st : astate) (p : Z) (allocate : bool) (a : Z) : outcome (astate * cres) :=
  do s <- rd_str st p;
  let hash := Hash_String s in
  do patom <- Locate_Atom st s hash;
  Add_Atom st p s hash patom allocate a.
(** atom.c:352-360; -1 if it does not exist *)
Definition Find_Atom (st : astate) (p : Z) : outcome Z :=
  do s <- rd_str st p;
  do patom <- Locate_Atom st s (Hash_String s);
  match patom with
  | None => Ret (-1)
  | Some i => do c <- rd_cell st i; Ret (if aname c =? 0 then -1 else i)
  end.
(** atom.c:584-593; [n] bounds the number of turns *)
Fixpoint next_loop (n : nat) (st : astate) (last : Z) : outcome Z :=
  match n with
  | O => NoFuel
  | S n =>
    let last := last + 1 in
    if (last mod 2 ^ 64) <? max then
      do c <- rd_cell st last; if negb (aname c =? 0) then Ret last else next_loop n st last
    else Ret (-1)
  end.
Definition Find_Next_Atom (st : astate) (last : Z) : outcome Z := next_loop (S (Z.to_nat max)) st last.
(** /repo/src/BipsPl/atom_c.c:102-109 Pl_Atom_Length_2 *)
Definition Atom_Length (st : astate) (i : Z) : outcome Z := do c <- rd_cell st i; Ret (alen c).
(** pl_atom_tbl[atom].name as used everywhere *)
Definition Atom_Name (st : astate) (i : Z) : outcome str :=
  do c <- rd_cell st i; rd_str st (aname c).

(** What C code does with the table and with its own buffers; [a] as above *)
Inductive aop :=
| OCreate (p : Z) (allocate : bool) (a : Z)
| OFind (p : Z)
| ONext (last : Z)
| OName (i : Z)
| OWrite (p : Z) (s : str)          (* writes a buffer *)
| ODrop (p : Z).                    (* frees a buffer *)
(** what can be observed: the string given and the result *)
Inductive aev := ECreate (s : str) (r : cres) | EFind (s : str) (i : Z) | ENext (last i : Z) | EName (i : Z) (s : str).
Definition run_aop (st : astate) (o : aop) : outcome (astate * list aev) :=
  match o with
  | OCreate p al a => do s <- rd_str st p; do (st, r) <- Create st p al a; Ret (st, [ECreate s r])
  | OFind p => do s <- rd_str st p; do i <- Find_Atom st p; Ret (st, [EFind s i])
  | ONext last => do i <- Find_Next_Atom st last; Ret (st, [ENext last i])
  | OName i => do s <- Atom_Name st i; Ret (st, [EName i s])
  | OWrite p s => Ret (Astate (upd (smem st) p (Some s)) (atbl st) (anb st), [])
  | ODrop p => Ret (Astate (upd (smem st) p None) (atbl st) (anb st), [])
  end.
Fixpoint run_aops (st : astate) (os : list aop) : outcome (astate * list aev) :=
  match os with
  | [] => Ret (st, [])
  | o :: os => do (st, r) <- run_aop st o; do (st, rs) <- run_aops st os; Ret (st, r ++ rs)
  end.
(** what the callers must respect: the string given exists; Strdup returns free memory; a
    string given to Pl_Create_Atom (not copied) that became the name of an atom is never
    changed nor freed *)
Definition is_name (st : astate) (p : Z) : Prop := exists i, 0 <= i < max /\ aname (atbl st i) = p.
Definition legal_aop (st : astate) (o : aop) : Prop :=
  match o with
  | OCreate p al a => p <> 0 /\ smem st p <> None /\ (al = true -> a <> 0 /\ smem st a = None)
  | OFind p => smem st p <> None
  | ONext last => -1 <= last < max
  | OName i => 0 <= i < max /\ aname (atbl st i) <> 0
  | OWrite p _ | ODrop p => p <> 0 /\ ~ is_name st p
  end.
Fixpoint legal_aops (st : astate) (os : list aop) : Prop :=
  match os with
  | [] => True
  | o :: os => legal_aop st o /\ forall st' l, run_aop st o = Ret (st', l) -> legal_aops st' os
  end.

(** atom.c:148-155: the size of the table *)
Definition ATOM_MAX_BITS : Z := 54.
Definition Clamp_Max_Atom (x : Z) : Z :=
  let x := if x <? 256 then 256 else x in
  let x := if x <=? ATOM_NIL then ATOM_NIL + 1 else x in
  if 2 ^ ATOM_MAX_BITS <? x then 2 ^ ATOM_MAX_BITS else x.
(** atom.c:157-158 Calloc *)
Definition Empty_Table (mem : Z -> option str) : astate := Astate mem (fun _ => Acell 0 0 0) 0.
(** atom.c:168-190: the 256 one-character strings (the string of code 0 is empty), "[]",
    "", "{}", "false", "true", "end_of_file".  [str_char i]: address of str_char[i];
    [lit]: addresses of the literals.  [None]: Pl_Fatal_Error *)
Definition create_at (st : astate) (p : Z) : outcome (astate * cres) := Create st p false 0.
Fixpoint init_chars (n : nat) (str_char : Z -> Z) (i : Z) (st : astate) : outcome (option astate) :=
  match n with
  | O => Ret (Some st)
  | S n => do (st, r) <- create_at st (str_char i); match r with TableFull => Ret None | Atom _ => init_chars n str_char (i + 1) st end
  end.
Definition Init_Atom (mem : Z -> option str) (str_char : Z -> Z) (nil void : Z) : outcome (option (astate * Z)) :=
  do r <- init_chars 256 str_char 0 (Empty_Table mem);
  match r with
  | None => Ret None
  | Some st =>
    do (st, i) <- create_at st nil;
    match i with
    | Atom i =>
      if negb (i =? ATOM_NIL) then Ret None
      else
        do (st, v) <- create_at st void;
        match v with Atom v => Ret (Some (st, v)) | TableFull => Ret None end
    | TableFull => Ret None
    end
  end.

(** atom.c:467-573 Pl_Gen_New_Atom: [rand k] is the k-th character chosen (an index into
    gen_sym_chars); gen_sym_buff is an array of 1024 characters, [fuel] bounds the number of turns *)
Definition gen_sym_char (c : Z) : Z := if c <? 10 then 48 + c else if c <? 36 then 55 + c else 61 + c.
Fixpoint gen_loop (fuel : nat) (st : astate) (rand : nat -> Z) (k : nat) (pre : str) : outcome (str * Z) :=
  match fuel with
  | O => NoFuel
  | S f =>
    let c := gen_sym_char (rand k mod 62) in
    if Nat.ltb 1023 (length pre + 1) then UB                   (* *str = ..., str[1] = '\0' *)
    else
      let s := pre ++ [c] in
      do patom <- Locate_Atom st s (Hash_String s);
      match patom with
      | None => UB                                             (* patom->name *)
      | Some i =>
        do x <- rd_cell st i;
        if aname x =? 0 then Ret (s, i)
        else gen_loop f st rand (S k) s                        (* TRY_MAX = 1: str++ *)
      end
  end.
Definition Gen_New_Atom (fuel : nat) (st : astate) (rand : nat -> Z) (p a : Z) : outcome (astate * cres) :=
  if max <=? anb st then Ret (st, TableFull)
  else
    do prefix <- rd_str st p;
    if Nat.ltb 1023 (length prefix) then UB                     (* strcpy *)
    else
      do (s, i) <- gen_loop fuel st rand 0 prefix;
      Add_Atom st 0 s (Hash_String s) (Some i) true a.

(** /repo/src/BipsPl/format_c.c:431-444: copying the directive (which begins with '%') up to the
    first character outside ' '..'9' included, into an array of 2048 characters with its
    final NUL (182).  The end of the format counts as the character 0. *)
Fixpoint printf_copy (fmt : str) : str * Z :=
  match fmt with
  | [] => ([], 0)
  | c :: fmt => if (32 <=? c) && (c <=? 57) then let '(s, last) := printf_copy fmt in (c :: s, last) else ([c], c)
  end.
(** strchr("diouxXpcsaAeEfFgG", c) != NULL; it finds 0 too *)
Definition printf_letter (c : Z) : bool :=
  existsb (Z.eqb c) [0; 100; 105; 111; 117; 120; 88; 112; 99; 115; 97; 65; 101; 69; 102; 70; 103; 71].
(** format_c.c:431-453: the atom of the domain error of a wrong directive.  [buff] is the
    automatic array; raising the error leaves the function.  [None]: no error here *)
Definition Format_Error (st : astate) (buff : Z) (fmt : str) : outcome (option (astate * cres)) :=
  let '(s, c) := printf_copy fmt in
  if Nat.ltb 2047 (length s) then UB
  else if printf_letter c then Ret None
  else
    let st := Astate (upd (smem st) buff (Some s)) (atbl st) (anb st) in
    do (st, r) <- Create st buff false 0;
    Ret (Some (Astate (upd (smem st) buff None) (atbl st) (anb st), r)).
End Atom.
