(** arg/3, functor/3, =../2 and setarg/4.  /repo/src/BipsPl/term_inl_c.c.

    Memory, registers and the instructions Pl_Get_List, Pl_Unify_Value,
    Pl_Unify_Variable, Pl_Get_Nil, Pl_Get_Integer and Pl_Unify are those of Unify_Model,
    Binding_Model, Copy_Model and List_Model.  A heap overflow is the outcome [Fatal], a
    call of the FD solver the outcome [Fd].  Pl_Set_C_Bip_Name (error context) is left
    out. *)
Require Import ZArith List Bool.
Require Import Verif.Term_Model Verif.Heap_Model Verif.Unify_Model Verif.Binding_Model
  Verif.Copy_Model Verif.List_Model.
Import ListNotations.
Open Scope Z_scope.

(** the Prolog errors *)
Inductive err : Type :=
| EInst | EInteger | EAtomic | EAtom | ECompound | EList | EBoolean  (* type errors but the first *)
| ENegative | EEmptyList                                             (* domain errors *)
| EMaxArity.                                                         (* representation error *)

(** a value or an error *)
Inductive chk (A : Type) : Type := Val (x : A) | Raise (e : err).
Arguments Val {A} x. Arguments Raise {A} e.
Definition cbind {A B} (r : chk A) (k : A -> outcome (chk B)) : outcome (chk B) :=
  match r with Val x => k x | Raise e => Ret (Raise e) end.
Notation "'check' x <- o ; k" := (bind o (fun r => cbind r (fun x => k)))
  (at level 200, x pattern, k at level 200).

(** C's [r && k]: go on after a success *)
Definition andthen (o : outcome (chk (lres hst))) (k : hst -> outcome (chk (lres hst)))
  : outcome (chk (lres hst)) :=
  check r <- o; match r with Ok s => k s | r => Ret (Val r) end.
(** a result without error *)
Definition plainly (o : outcome (lres hst)) : outcome (chk (lres hst)) := do r <- o; Ret (Val r).

(** /repo/src/BipsPl/c_supp.c:217-230 Pl_Rd_Integer_Check, 256-267 Pl_Rd_Positive_Check *)
Definition Rd_Positive_Check (fuel : nat) (m : mem) (w : word) : outcome (chk Z) :=
  do w <- deref fuel m w;
  match w with
  | REF _ => Ret (Raise EInst)
  | INT n => if n <? 0 then Ret (Raise ENegative) else Ret (Val n)
  | _ => Ret (Raise EInteger)
  end.

(** c_supp.c:1351-1383 Pl_Rd_Compound_Check: arity and address of the first argument *)
Definition Rd_Compound_Check (fuel : nat) (m : mem) (w : word) : outcome (chk (nat * addr)) :=
  do w <- deref fuel m w;
  match w with
  | REF _ => Ret (Raise EInst)
  | LST a => Ret (Val (2%nat, a))
  | STC a => do fn <- rd_func m a; Ret (Val (snd fn, a + 1))
  | _ => Ret (Raise ECompound)
  end.

(** /repo/src/EnginePl/wam_inst.c:208-239 Pl_Get_Atom *)
Definition Get_Atom (fuel : nat) (c : cfg) (s : hst) (i : Z) (w : word) : outcome (lres hst) :=
  do w <- deref fuel (mm (hm s)) w;
  match w with
  | REF a => Ret (Ok (Hst (Bind_UV c (hm s) a (ATM i)) (hH s)))
  | w => if word_eqb w (ATM i) then Ret (Ok s) else Ret No
  end.

(** c_supp.c:1975-1981 Pl_Un_Atom_Check *)
Definition Un_Atom_Check (fuel : nat) (c : cfg) (s : hst) (i : Z) (w : word) : outcome (chk (lres hst)) :=
  do w <- deref fuel (mm (hm s)) w;
  match w with
  | REF _ | ATM _ => plainly (Get_Atom fuel c s i w)
  | _ => Ret (Raise EAtom)
  end.
(** c_supp.c:1854-1860 Pl_Un_Integer_Check *)
Definition Un_Integer_Check (fuel : nat) (c : cfg) (s : hst) (n : Z) (w : word) : outcome (chk (lres hst)) :=
  do w <- deref fuel (mm (hm s)) w;
  match w with
  | REF _ | INT _ => plainly (Get_Integer fuel c s n w)
  | _ => Ret (Raise EInteger)
  end.

(** wam_inst.c:364-407 Pl_Get_Structure: the register S, [None] in write mode; needs one
    cell in write mode *)
Definition Get_Structure (fuel : nat) (c : cfg) (s : hst) (f : Z) (n : nat) (w : word)
  : outcome (option (hst * option addr)) :=
  do w <- deref fuel (mm (hm s)) w;
  match w with
  | REF a =>
    let h := hH s in
    let s1 := St (store (mm (hm s)) h (Func f n)) (tr (hm s)) in
    Ret (Some (Hst (Bind_UV c s1 a (STC h)) (h + 1), None))
  | STC a =>
    do fn <- rd_func (mm (hm s)) a;
    if (fst fn =? f) && Nat.eqb (snd fn) n then Ret (Some (s, Some (a + 1))) else Ret None
  | _ => Ret None
  end.

(** wam_inst.c:739-759 Pl_Unify_Void, [n >= 1] *)
Fixpoint push_vars (n : nat) (s : hst) : hst :=
  match n with O => s | S n => push_vars n (Global_Push s (REF (hH s))) end.
Definition Unify_Void (n : nat) (s : hst) (md : option addr) : hst :=
  match md with Some _ => s | None => push_vars n s end.

(** /repo/src/BipsPl/term_inl_c.c:196-214.  [bits]: the size of an unsigned long; a PlLong
    has 64 bits *)
Definition Arg_3 (bits : Z) (fuel : nat) (c : cfg) (s : hst) (no t sub : word)
  : outcome (chk (lres hst)) :=
  check n <- Rd_Positive_Check fuel (mm (hm s)) no;
  let arg_no := n - 1 in
  check r <- Rd_Compound_Check fuel (mm (hm s)) t;
  if arg_no mod 2 ^ bits <? Z.of_nat (fst r) mod 2 ^ bits then
    do w <- rd_word (mm (hm s)) (snd r + arg_no);
    plainly (unify fuel c s sub w)
  else Ret (Val No).

(** term_inl_c.c:223-302; [maxa] is MAX_ARITY *)
Definition Functor_3 (maxa : Z) (fuel : nat) (c : cfg) (s : hst) (t f a : word)
  : outcome (chk (lres hst)) :=
  let m := mm (hm s) in
  do w <- deref fuel m t;
  match w with
  | LST _ =>
    andthen (Un_Atom_Check fuel c s ATOM_DOT f) (fun s => Un_Integer_Check fuel c s 2 a)
  | STC b =>
    do fn <- rd_func m b;
    andthen (Un_Atom_Check fuel c s (fst fn) f)
      (fun s => do fn <- rd_func (mm (hm s)) b; Un_Integer_Check fuel c s (Z.of_nat (snd fn)) a)
  | REF _ =>
    do fw <- deref fuel m f;
    match fw with
    | REF _ => Ret (Raise EInst)
    | LST _ | STC _ | FDV _ => Ret (Raise EAtomic)
    | _ =>
      check n <- Rd_Positive_Check fuel m a;
      if maxa <? n then Ret (Raise EMaxArity) else
      match fw with
      | ATM i =>
        if (i =? ATOM_DOT) && (n =? 2) then
          do g <- Get_List fuel c s t;
          match g with
          | None => Ret (Val No)
          | Some (s, md) =>
            if room c s md 2 then Ret (Val (Ok (Unify_Void 2 s md))) else Ret (Val Fatal)
          end
        else if 0 <? n then
          if room c s None (n + 1) then
            do g <- Get_Structure fuel c s i (Z.to_nat n) t;
            match g with
            | None => Ret (Val No)
            | Some (s, md) => Ret (Val (Ok (Unify_Void (Z.to_nat n) s md)))
            end
          else Ret (Val Fatal)
        else plainly (unify fuel c s fw t)
      | _ => if negb (n =? 0) then Ret (Raise EAtom) else plainly (unify fuel c s fw t)
      end
    end
  | _ => andthen (plainly (unify fuel c s w f)) (fun s => Un_Integer_Check fuel c s 0 a)
  end.

Section Univ.
Variable nil : Z.                              (* the atom '[]' *)

(** /repo/src/BipsPl/type_inl_c.c:290-308 Pl_Blt_List_Or_Partial_List; [k] bounds the number of
    cells read *)
Fixpoint List_Or_Partial_List (k fuel : nat) (m : mem) (w : word) : outcome bool :=
  match k with
  | O => NoFuel
  | S k =>
    do w <- deref fuel m w;
    match w with
    | REF _ => Ret true
    | ATM i => Ret (i =? nil)
    | LST a => do w <- rd_word m (a + 1); List_Or_Partial_List k fuel m w
    | _ => Ret false
    end
  end.

(** the loop of term_inl_c.c:367-380, [n] arguments left from the address [a] on *)
Fixpoint univ_list (n fuel : nat) (c : cfg) (s : hst) (l car : word) (a : addr) : outcome (lres hst) :=
  do r <- put_list true fuel c s l car;
  get (l, s) <- r;
  match n with
  | O => get_nil nil fuel c s l
  | S n => do car <- rd_word (mm (hm s)) a; univ_list n fuel c s l car (a + 1)
  end.

(** the loop of term_inl_c.c:419-437 from a dereferenced list word: number of elements;
    [k] bounds that number.  Prolog error, or [None] if the heap is full *)
Fixpoint univ_args (k fuel : nat) (c : cfg) (s : hst) (w : word) : outcome (chk (option (nat * hst))) :=
  match k with
  | O => NoFuel
  | S k =>
    match w with
    | LST a =>
      do x <- rd_word (mm (hm s)) a;
      do x <- deref fuel (mm (hm s)) x;
      if room c s None 1 then
        let s := Global_Push s (Do_Copy_Of_Word x) in
        do y <- rd_word (mm (hm s)) (a + 1);
        do y <- deref fuel (mm (hm s)) y;
        if word_eqb y (ATM nil) then Ret (Val (Some (1%nat, s))) else
        match y with
        | REF _ => Ret (Raise EInst)
        | LST _ =>
          check r <- univ_args k fuel c s y;
          Ret (Val (match r with Some (n, s) => Some (S n, s) | None => None end))
        | _ => Ret (Raise EList)
        end
      else Ret (Val None)
    | _ => UB
    end
  end.

(** Bind_UV(term_adr, term_word) at the end, term_inl_c.c:450-451 *)
Definition bind_term (c : cfg) (s : hst) (a : addr) (w : word) : hst := Hst (Bind_UV c (hm s) a w) (hH s).

(** term_inl_c.c:311-454 *)
Definition Univ_2 (maxa : Z) (k fuel : nat) (c : cfg) (s : hst) (t l : word) : outcome (chk (lres hst)) :=
  let m := mm (hm s) in
  do w <- deref fuel m t;
  let to_list (car : word) (n : nat) (a : addr) :=
    do b <- List_Or_Partial_List k fuel m l;
    if b then plainly (univ_list n fuel c s l car a) else Ret (Raise EList) in
  match w with
  | LST a => to_list (ATM ATOM_DOT) 2%nat a
  | STC a => do fn <- rd_func m a; to_list (ATM (fst fn)) (snd fn) (a + 1)
  | FDV a => to_list (REF a) O 0
  | REF v =>
    do lw <- deref fuel m l;
    match lw with
    | REF _ => Ret (Raise EInst)
    | LST a =>
      do fw <- rd_word m a;
      do fw <- deref fuel m fw;
      match fw with
      | REF _ => Ret (Raise EInst)
      | _ =>
        do y <- rd_word m (a + 1);
        do y <- deref fuel m y;
        if word_eqb y (ATM nil) then
          match fw with
          | ATM _ | INT _ | FLT _ => Ret (Val (Ok (bind_term c s v fw)))
          | _ => Ret (Raise EAtomic)
          end
        else
        match y, fw with
        | REF _, _ => Ret (Raise EInst)
        | LST _, ATM f =>
          let h := hH s in
          check r <- univ_args k fuel c (Hst (hm s) (h + 1)) y;
          match r with
          | None => Ret (Val Fatal)
          | Some (n, s) =>
            if maxa <? Z.of_nat n then Ret (Raise EMaxArity)
            else if (f =? ATOM_DOT) && Nat.eqb n 2 then Ret (Val (Ok (bind_term c s v (LST (h + 1)))))
            else
              let s := Hst (St (store (mm (hm s)) h (Func f n)) (tr (hm s))) (hH s) in
              Ret (Val (Ok (bind_term c s v (STC h))))
          end
        | _, ATM _ => Ret (Raise EList)
        | _, _ => Ret (Raise EAtom)
        end
      end
    | _ => if word_eqb lw (ATM nil) then Ret (Raise EEmptyList) else Ret (Raise EList)
    end
  | _ => to_list w O 0
  end.
End Univ.

(** /repo/src/EnginePl/wam_inst.h:468-475 Bind_OV, 496-502 Trail_OV *)
Definition Bind_OV (c : cfg) (s : st) (a : addr) (w : word) : outcome st :=
  match mm s a with
  | Some old =>
    let t := if Word_Needs_Trailing c a then TOV a old :: tr s else tr s in
    Ret (St (store (mm s) a (Word w)) t)
  | None => UB
  end.

(** /repo/src/BipsPl/term_inl_c.c:489-520 Pl_Setarg_4; [tt], [ff] are the atoms true and false
    (Pl_Rd_Boolean_Check, c_supp.c:485-500).  The comparison is on 64 bits (PlULong) *)
Definition Setarg_4 (tt ff : Z) (fuel : nat) (c : cfg) (s : hst) (no t v undo : word)
  : outcome (chk (lres hst)) :=
  let m := mm (hm s) in
  check r <- Rd_Compound_Check fuel m t;
  check n <- Rd_Positive_Check fuel m no;
  let arg_no := (n - 1) mod 2 ^ 64 in
  do u <- deref fuel m undo;
  check undo <- match u with
                | REF _ => Ret (Raise EInst)
                | ATM i => if i =? tt then Ret (Val true) else if i =? ff then Ret (Val false)
                           else Ret (Raise EBoolean)
                | _ => Ret (Raise EBoolean)
                end;
  do w <- deref fuel m v;
  if negb undo && match w with ATM _ | INT _ => false | _ => true end then Ret (Raise EAtomic)
  else if Z.of_nat (fst r) <=? arg_no then Ret (Val No)
  else if undo then do s' <- Bind_OV c (hm s) (snd r + arg_no) w; Ret (Val (Ok (Hst s' (hH s))))
  else Ret (Val (Ok (Hst (St (store m (snd r + arg_no) (Word w)) (tr (hm s))) (hH s)))).

(** /repo/src/EnginePl/wam_inst.c:1724-1759 Pl_Untrail down to [n] entries; the entries TFC (calls of
    C functions) are not modelled *)
Fixpoint put_cells (m : mem) (a : addr) (cs : list cell) : mem :=
  match cs with [] => m | c :: cs => put_cells (store m a c) (a + 1) cs end.
Fixpoint Untrail (n : nat) (t : list tentry) (m : mem) : option mem :=
  if Nat.leb (length t) n then Some m else
  match t with
  | TUV a :: t => Untrail n t (store m a (Word (REF a)))
  | TOV a c :: t => Untrail n t (store m a c)
  | TMV a cs :: t => Untrail n t (put_cells m a cs)
  | TFC _ _ :: _ => None
  | [] => Some m
  end.
