(** sub_atom/5 and atom_concat/3: /repo/src/BipsPl/atom_c.c:130-580.  Atoms are strings of
    bytes 1..255 (C22: an atom is its name).  An argument is a variable or a value; answers are
    the values of the arguments, in the order of backtracking.  The tests of types and of
    negative integers (DEREF_LG) are left out: [Sub_Atom] is given the right types. *)
Require Import ZArith List Bool.
Require Import Verif.Heap_Model.
Import ListNotations.
Open Scope Z_scope.

Inductive val := VInt (z : Z) | VAtm (s : list Z).
Inductive arg := Var (v : nat) | Val (x : val).
Definition val_eqb (x y : val) : bool :=
  match x, y with
  | VInt a, VInt b => a =? b
  | VAtm s, VAtm t => if list_eq_dec Z.eq_dec s t then true else false
  | _, _ => false
  end.
(** bindings *)
Definition env := list (nat * val).
Fixpoint lookup (e : env) (v : nat) : option val :=
  match e with [] => None | (w, x) :: e => if Nat.eqb v w then Some x else lookup e v end.
(** Pl_Get_Integer, Pl_Get_Atom *)
Definition Get (x : val) (t : arg) (e : env) : option env :=
  match t with
  | Val y => if val_eqb x y then Some e else None
  | Var v => match lookup e v with Some y => if val_eqb x y then Some e else None | None => Some ((v, x) :: e) end
  end.
Definition deref_arg (e : env) (t : arg) : option val := match t with Val x => Some x | Var v => lookup e v end.

(** prop.length *)
Definition plen (s : list Z) : Z := Z.of_nat (length s) mod 2 ^ 16.
(** the string at name + b *)
Definition at_off (s : list Z) (b : Z) : outcome (list Z) :=
  if (0 <=? b) && (b <=? Z.of_nat (length s)) then Ret (skipn (Z.to_nat b) s) else UB.
Definition seqb (s t : list Z) : bool := if list_eq_dec Z.eq_dec s t then true else false.
(** strncmp(name + b, t, l) == 0; nothing is read when l is 0 *)
Definition strncmp_at (s : list Z) (b : Z) (t : list Z) (l : Z) : outcome bool :=
  if l =? 0 then Ret true
  else do x <- at_off s b; Ret (seqb (firstn (Z.to_nat l) x) (firstn (Z.to_nat l) t)).
(** strstr on the string starting at offset [i] *)
Fixpoint strstr (i : Z) (s t : list Z) : option Z :=
  if seqb (firstn (length t) s) t then Some i
  else match s with [] => None | _ :: s => strstr (i + 1) s t end.
(** strstr(name + b, t) - name *)
Definition strstr_at (s : list Z) (b : Z) (t : list Z) : outcome (option Z) :=
  do x <- at_off s b; Ret (strstr b x t).

(** ** sub_atom *)
Record bla := Bla { before : arg; len : arg; after : arg; sub : arg }.
(** atom_c.c:513-566; [mask] 8: sub_atom is an atom, psub *)
Definition Compute_Next_BLA (mask : Z) (name psub : list Z) (b l a : Z) : outcome (option (Z * Z * Z)) :=
  let length := plen name in
  match mask with
  | 0 =>
    let l := l + 1 in
    if length - b <? l then
      let l := 0 in let b := b + 1 in
      if length <? b then Ret None else Ret (Some (b, l, length - b - l))
    else Ret (Some (b, l, length - b - l))
  | 1 => let b := b + 1 in if length - a <? b then Ret None else Ret (Some (b, length - b - a, a))
  | 2 => let b := b + 1 in if length - l <? b then Ret None else Ret (Some (b, l, length - b - l))
  | 4 => let l := l + 1 in if length - b <? l then Ret None else Ret (Some (b, l, length - b - l))
  | _ =>
    let b := b + 1 in
    if length - l <? b then Ret None
    else
      do r <- strstr_at name b psub;
      match r with None => Ret None | Some b => Ret (Some (b, l, length - b - l)) end
  end.
(** the values of the arguments *)
Definition answer (e : env) (g : bla) : option (val * val * val * val) :=
  match deref_arg e (before g), deref_arg e (len g), deref_arg e (after g), deref_arg e (sub g) with
  | Some b, Some l, Some a, Some s => Some (b, l, a, s)
  | _, _, _, _ => None
  end.
(** atom_c.c:440-449, 499-508: the results of the two first calls are ignored; [e]: bindings
    made before.  MALLOC_STR fails for a negative length *)
Definition Give (mask : Z) (name : list Z) (g : bla) (e : env) (b l a : Z) : outcome (option env) :=
  do r <- (if mask <=? 7 then
             if l <? 0 then Ret None
             else
               do x <- at_off name b;
               let e1 := match Get (VAtm (firstn (Z.to_nat l) x)) (sub g) e with Some e => e | None => e end in
               Ret (Some (match Get (VInt l) (len g) e1 with Some e => e | None => e1 end))
           else Ret (Some e));
  match r with
  | None => Ret None
  | Some e => Ret (match Get (VInt b) (before g) e with Some e => Get (VInt a) (after g) e | None => None end)
  end.
Definition to_list {A} (o : option A) : list A := match o with Some x => [x] | None => [] end.
Definition answers (g : bla) (e : option env) : list (val * val * val * val) :=
  match e with Some e => to_list (answer e g) | None => [] end.
(** backtracking into Pl_Sub_Atom_Alt_0 (atom_c.c:461-508) until the choice point is deleted *)
Fixpoint Sub_Atom_Alt (fuel : nat) (mask : Z) (name psub : list Z) (g : bla) (e : env) (b l a : Z) : outcome (list (val * val * val * val)) :=
  match fuel with
  | O => NoFuel
  | S f =>
    do next <- Compute_Next_BLA mask name psub b l a;
    do r <- Give mask name g e b l a;
    do rest <- match next with Some (b1, l1, a1) => Sub_Atom_Alt f mask name psub g e b1 l1 a1 | None => Ret [] end;
    Ret (answers g r ++ rest)
  end.
Definition fixed_int (t : arg) : option Z := match t with Val (VInt z) => Some z | _ => None end.
Definition or0 (o : option Z) : Z := match o with Some z => z | None => 0 end.
Definition bit (o : option Z) : Z := match o with Some _ => 1 | None => 0 end.
(** atom_c.c:325-450 *)
Definition Sub_Atom (fuel : nat) (name : list Z) (g : bla) : outcome (list (val * val * val * val)) :=
  let length := plen name in
  let b := or0 (fixed_int (before g)) in
  let l := or0 (fixed_int (len g)) in
  let a := or0 (fixed_int (after g)) in
  let mask := 4 * bit (fixed_int (before g)) + 2 * bit (fixed_int (len g)) + bit (fixed_int (after g)) in
  let go mask psub e b l a (nondet : bool) :=
    if (b <? 0) || (l <? 0) || (a <? 0) then Ret []
    else if nondet then Sub_Atom_Alt fuel mask name psub g e b l a
    else do r <- Give mask name g e b l a; Ret (answers g r) in
  match sub g with
  | Val (VAtm psub) =>
    let l := plen psub in
    match Get (VInt l) (len g) [] with
    | None => Ret []
    | Some e =>
      if (bit (fixed_int (before g)) =? 1) && (bit (fixed_int (after g)) =? 1) && negb (length =? b + l + a) then Ret []
      else if bit (fixed_int (before g)) =? 1 then
        let a := length - b - l in
        do c <- strncmp_at name b psub l;
        Ret (if c then answers g (Get (VInt a) (after g) e) else [])
      else if bit (fixed_int (after g)) =? 1 then
        let b := length - l - a in
        do c <- strncmp_at name b psub l;
        Ret (if c then answers g (Get (VInt b) (before g) e) else [])
      else
        do r <- strstr_at name b psub;
        match r with
        | None => Ret []
        | Some b => go 8 psub e b l (length - b - l) true
        end
    end
  | _ =>
    match mask with
    | 0 | 2 | 4 => go mask [] [] b l (length - b - l) true
    | 1 => go mask [] [] b (length - b - a) a true
    | 3 => go mask [] [] (length - l - a) l a false
    | 5 => go mask [] [] b (length - b - a) a false
    | _ => go mask [] [] b l (length - b - l) false
    end
  end.

(** ** atom_concat *)
(** strcpy into an array of [n] bytes *)
Definition strcpy (n : Z) (s : list Z) : outcome (list Z) := if Z.of_nat (length s) <? n then Ret s else UB.
Inductive cres := Answers (l : list (val * val * val)) | Instantiation.
Definition answer3 (e : env) (t1 t2 t3 : arg) : list (val * val * val) :=
  match deref_arg e t1, deref_arg e t2, deref_arg e t3 with Some x, Some y, Some z => [(x, y, z)] | _, _, _ => [] end.
Definition answers3 (e : option env) (t1 t2 t3 : arg) : list (val * val * val) :=
  match e with Some e => answer3 e t1 t2 t3 | None => [] end.
(** atom_c.c:240-281 until the choice point is deleted; [p] is the offset of p in the name.
    The first [Get] of [t2] is on the bindings left by that of [t1] *)
Fixpoint Atom_Concat_Alt (fuel : nat) (name : list Z) (t1 t2 t3 : arg) (p : Z) : outcome (list (val * val * val)) :=
  match fuel with
  | O => NoFuel
  | S f =>
    do x <- at_off name p;
    let r1 := Get (VAtm (firstn (Z.to_nat p) name)) t1 [] in
    do r <- match r1 with
            | None => Ret []
            | Some e =>
              let l := plen name - p in
              if l <? 0 then Ret []
              else do s <- strcpy (l + 1) x; Ret (answers3 (Get (VAtm s) t2 e) t1 t2 t3)
            end;
    do rest <- (match x with [] => Ret [] | _ => Atom_Concat_Alt f name t1 t2 t3 (p + 1) end);
    Ret (r ++ rest)
  end.
(** atom_c.c:136-229 *)
Definition Atom_Concat (fuel : nat) (t1 t2 t3 : arg) : outcome cres :=
  match t1, t2, t3 with
  | Val (VAtm s1), Val (VAtm s2), _ =>
    let l := plen s1 + plen s2 in
    do x <- strcpy (l + 1) s1;
    do y <- strcpy (l + 1 - plen s1) s2;
    (* the second copy starts at the length of the first *)
    let str := firstn (Z.to_nat (plen s1)) x ++ y in
    Ret (Answers (answers3 (Get (VAtm str) t3 []) t1 t2 t3))
  | Val (VAtm s1), _, Val (VAtm s3) =>
    let l := plen s3 - plen s1 in
    if l <? 0 then Ret (Answers [])
    else
      do c <- strncmp_at s3 0 s1 (plen s1);
      if negb c then Ret (Answers [])
      else
        do x <- at_off s3 (plen s1);
        do s <- strcpy (l + 1) x;
        Ret (Answers (answers3 (Get (VAtm s) t2 []) t1 t2 t3))
  | _, Val (VAtm s2), Val (VAtm s3) =>
    let l := plen s3 - plen s2 in
    if l <? 0 then Ret (Answers [])
    else
      do c <- strncmp_at s3 l s2 (plen s2);
      if negb c then Ret (Answers [])
      else Ret (Answers (answers3 (Get (VAtm (firstn (Z.to_nat l) s3)) t1 []) t1 t2 t3))
  | Var v1, Var v2, Val (VAtm s3) =>
    if Nat.eqb v1 v2 then
      let l := plen s3 in
      if negb (Z.rem l 2 =? 0) then Ret (Answers [])
      else
        let l := Z.quot l 2 in
        do x <- at_off s3 l;
        do c <- strncmp_at s3 0 x l;
        if negb c then Ret (Answers [])
        else Ret (Answers (answers3 (match Get (VAtm x) t1 [] with Some e => Get (VAtm x) t2 e | None => None end) t1 t2 t3))
    else
      let first := answers3 (match Get (VAtm []) t1 [] with Some e => Get (VAtm s3) t2 e | None => None end) t1 t2 t3 in
      do rest <- (if 0 <? plen s3 then Atom_Concat_Alt fuel s3 t1 t2 t3 1 else Ret []);
      Ret (Answers (first ++ rest))
  | _, _, _ => Ret Instantiation
  end.
