(** Walking through a term: its variables, its size, its copies.
    /repo/src/BipsPl/term_supp.c, term_inl_c.c. *)
Require Import ZArith List Bool Floats.SpecFloat.
Require Import Verif.Term_Model Verif.Heap_Model Verif.Unify_Model Verif.Binding_Model.
Import ListNotations.
Open Scope Z_scope.

(** ** Variables of a term *)

(** what the function called on each variable does: go on, stop (FALSE), throw an
    error (Pl_Err_Representation does not return) *)
Inductive visit (A : Type) : Type := Go (x : A) | Stop (x : A) | Throw (x : A).
Arguments Go {A} x. Arguments Stop {A} x. Arguments Throw {A} x.

Section Visit.
Context {A : Type}.
Variable one : A -> word -> outcome (visit A).
(** the arguments: all but the last by recursive calls, the last one by
    [goto terminal_rec]; [while (--i)] with arity 0 would run away: UB *)
Fixpoint visit_args (n : nat) (m : mem) (x : A) (a : addr) : outcome (visit A) :=
  match n with
  | O => UB
  | S n =>
    do w <- rd_word m a;
    match n with
    | O => one x w
    | S _ => do r <- one x w;
      match r with Go x => visit_args n m x (a + 1) | r => Ret r end
    end
  end.
End Visit.

(** /repo/src/BipsPl/term_supp.c:189-237 *)
Fixpoint Treat_Vars_Of_Term {A} (fct : A -> addr -> word -> visit A) (generic_var : bool)
  (fuel : nat) (m : mem) (x : A) (w : word) : outcome (visit A) :=
  match fuel with
  | O => NoFuel
  | S fuel =>
    do w <- deref fuel m w;
    match w with
    | REF a => Ret (fct x a w)
    | FDV a => if generic_var then Ret (fct x a w) else Ret (Go x)
    | LST a => visit_args (Treat_Vars_Of_Term fct generic_var fuel m) 2 m x a
    | STC a => do fn <- rd_func m a;
      visit_args (Treat_Vars_Of_Term fct generic_var fuel m) (snd fn) m x (a + 1)
    | _ => Ret (Go x)
    end
  end.

(** /repo/src/BipsPl/term_inl_c.c:617-631; the table pl_glob_dico_var as the list of
    the addresses stored so far, [lim] is MAX_VAR_IN_TERM *)
Definition Collect_Variable (lim : nat) (x : list addr) (a : addr) (w : word) : visit (list addr) :=
  if existsb (fun b => b =? a) x then Go x
  else if Nat.leb lim (length x) then Throw x
  else Go (x ++ [a]).

(** /repo/src/EnginePl/wam_inst.c:335-356 Pl_Get_List; the register S is [None] in
    write mode *)
Definition Get_List (fuel : nat) (c : cfg) (s : hst) (w : word)
  : outcome (option (hst * option addr)) :=
  do w <- deref fuel (mm (hm s)) w;
  match w with
  | REF a => Ret (Some (Hst (Bind_UV c (hm s) a (LST (hH s))) (hH s), None))
  | LST a => Ret (Some (s, Some a))
  | _ => Ret None
  end.
(** wam_inst.c:768-776 Pl_Unify_Value; the unification is the one of Unify_Model *)
Definition Unify_Value (fuel : nat) (c : cfg) (s : hst) (md : option addr) (w : word)
  : outcome (ures * hst * option addr) :=
  match md with
  | Some a =>
    do v <- rd_word (mm (hm s)) a;
    do r <- Unify false fuel c (hm s) w v;
    Ret (fst r, Hst (snd r) (hH s), Some (a + 1))
  | None => Ret (USucc, Global_Push s w, None)
  end.
(** wam_inst.c:710-731 Pl_Unify_Variable *)
Definition Unify_Variable (s : hst) (md : option addr) : outcome (word * hst * option addr) :=
  match md with
  | Some a => do v <- rd_word (mm (hm s)) a; Ret (Do_Copy_Of_Word v, s, Some (a + 1))
  | None => Ret (REF (hH s), Global_Push s (REF (hH s)), None)
  end.
(** wam_inst.c:311-325 Pl_Get_Nil; NIL_WORD is the atom '[]' *)
Definition Get_Nil (nil : Z) (fuel : nat) (c : cfg) (s : hst) (w : word) : outcome (bool * hst) :=
  do w <- deref fuel (mm (hm s)) w;
  match w with
  | REF a => Ret (true, Hst (Bind_UV c (hm s) a (ATM nil)) (hH s))
  | w => Ret (word_eqb w (ATM nil), s)
  end.

(** the loop of Pl_Term_Variables_3, term_inl_c.c:585-590 *)
Fixpoint unify_var_list (fuel : nat) (c : cfg) (s : hst) (l : word) (vs : list addr)
  : outcome (ures * hst * word) :=
  match vs with
  | [] => Ret (USucc, s, l)
  | a :: vs =>
    do g <- Get_List fuel c s l;
    match g with
    | None => Ret (UFail, s, l)
    | Some (s, md) =>
      do r <- Unify_Value fuel c s md (REF a);
      match r with
      | (USucc, s, md) =>
        do v <- Unify_Variable s md;
        unify_var_list fuel c (snd (fst v)) (fst (fst v)) vs
      | (r, s, _) => Ret (r, s, l)
      end
    end
  end.

(** result of a builtin that may throw *)
Inductive bres (A : Type) : Type := BRet (x : A) | BThrow.
Arguments BRet {A} x. Arguments BThrow {A}.

(** /repo/src/BipsPl/term_inl_c.c:571-596 without a tail argument (term_variables/2),
    after Pl_Check_For_Un_List *)
Definition Term_Variables_2 (nil : Z) (lim fuel : nat) (c : cfg) (s : hst) (w l : word)
  : outcome (bres (ures * hst)) :=
  do r <- Treat_Vars_Of_Term (Collect_Variable lim) true fuel (mm (hm s)) [] w;
  match r with
  | Throw _ => Ret BThrow
  | Stop vs | Go vs =>
    do x <- unify_var_list fuel c s l vs;
    match x with
    | (USucc, s, l) => do b <- Get_Nil nil fuel c s l; Ret (BRet (if fst b then USucc else UFail, snd b))
    | (r, s, _) => Ret (BRet (r, s))
    end
  end.

(** ** Size *)
Section SizeArgs.
Variable size : word -> outcome Z.
Fixpoint size_args (n : nat) (m : mem) (a : addr) : outcome Z :=
  match n with
  | O => UB
  | S n =>
    do w <- rd_word m a;
    do x <- size w;
    match n with O => Ret x | S _ => do y <- size_args n m (a + 1); Ret (x + y) end
  end.
End SizeArgs.

(** /repo/src/BipsPl/term_supp.c:280-328 (64 bits; the C result is an int).
    [fd a] is Fd_Variable_Size. *)
Fixpoint Term_Size (fd : addr -> Z) (fuel : nat) (m : mem) (w : word) : outcome Z :=
  match fuel with
  | O => NoFuel
  | S fuel =>
    do w <- deref fuel m w;
    match w with
    | FDV a => Ret (1 + fd a)
    | FLT _ => Ret 2
    | LST a => do x <- size_args (Term_Size fd fuel m) 2 m a; Ret (1 + x)
    | STC a => do fn <- rd_func m a; do x <- size_args (Term_Size fd fuel m) (snd fn) m (a + 1); Ret (2 + x)
    | _ => Ret 1
    end
  end.

(** ** Copy of a non contiguous term *)

(** memory, the table [vars] (top first: word to restore, address), the next address
    to use ([*p]) *)
Record cst := Cst { cm : mem; cvars : list (word * addr); cp : addr }.

(** [CTooMany]: Pl_Err_Representation(too_many_variables) is thrown;
    [CFd]: an FD variable is met (Fd_Copy_Variable is not modelled) *)
Inductive cres := COk (s : cst) | CTooMany (s : cst) | CFd.

Section CopyArgs.
Variable copy : cst -> addr -> word -> outcome cres.
Fixpoint copy_args (n : nat) (s : cst) (q a : addr) : outcome cres :=
  match n with
  | O => UB
  | S n =>
    do w <- rd_word (cm s) a;
    match n with
    | O => copy s q w
    | S _ => do r <- copy s q w;
      match r with COk s => copy_args n s (q + 1) (a + 1) | r => Ret r end
    end
  end.
End CopyArgs.

Definition cstore (s : cst) (a : addr) (c : cell) : cst := Cst (store (cm s) a c) (cvars s) (cp s).

(** /repo/src/BipsPl/term_supp.c:372-475 (64 bits); [w] is [*src_adr], [lim] is
    MAX_VAR_IN_TERM, [base] is base_copy *)
Fixpoint Copy_Term_Rec (lim : nat) (base : addr) (fuel : nat) (s : cst) (dst : addr) (w : word)
  : outcome cres :=
  match fuel with
  | O => NoFuel
  | S fuel =>
    do w <- deref fuel (cm s) w;
    let q := cp s in
    match w with
    | REF a =>
      if (a <? q) && (base <=? a) then Ret (COk (cstore s dst (Word w)))
      else if Nat.leb lim (length (cvars s)) then Ret (CTooMany s)
      else
        let m := store (store (cm s) dst (Word (REF dst))) a (Word (REF dst)) in
        Ret (COk (Cst m ((w, a) :: cvars s) q))
    | FDV _ => Ret CFd
    | FLT a =>
      do d <- rd_dbl (cm s) a;
      Ret (COk (Cst (store (store (cm s) q (Dbl d)) dst (Word (FLT q))) (cvars s) (q + 1)))
    | LST a =>
      copy_args (Copy_Term_Rec lim base fuel) 2
        (Cst (store (cm s) dst (Word (LST q))) (cvars s) (q + 2)) q a
    | STC a =>
      do fn <- rd_func (cm s) a;
      copy_args (Copy_Term_Rec lim base fuel) (snd fn)
        (Cst (store (store (cm s) dst (Word (STC q))) q (Func (fst fn) (snd fn))) (cvars s)
             (q + 1 + Z.of_nat (snd fn))) (q + 1) (a + 1)
    | w => Ret (COk (cstore s dst (Word w)))
    end
  end.

(** the restoring loop, term_supp.c:357-361 *)
Definition restore_vars (vs : list (word * addr)) (m : mem) : mem :=
  fold_left (fun m wa => store m (snd wa) (Word (fst wa))) vs m.

(** result of Pl_Copy_Term: the memory, or the memory when the error is thrown *)
Inductive cpres := CpOk (m : mem) | CpTooMany (m : mem) | CpFd.

(** /repo/src/BipsPl/term_supp.c:338-362 *)
Definition Copy_Term (lim fuel : nat) (m : mem) (dst : addr) (w : word) : outcome cpres :=
  do r <- Copy_Term_Rec lim dst fuel (Cst m [] (dst + 1)) dst w;
  match r with
  | COk s => Ret (CpOk (restore_vars (cvars s) (cm s)))
  | CTooMany s => Ret (CpTooMany (cm s))
  | CFd => Ret CpFd
  end.

(** /repo/src/BipsPl/term_inl_c.c:464-481 Pl_Copy_Term_2: the copy is built at H and
    unified with the second argument *)
Definition Copy_Term_2 (fd : addr -> Z) (lim fuel : nat) (c : cfg) (s : hst) (u v : word)
  : outcome (bres (ures * hst)) :=
  do size <- Term_Size fd fuel (mm (hm s)) u;
  do r <- Copy_Term lim fuel (mm (hm s)) (hH s) u;
  match r with
  | CpOk m =>
    do w <- rd_word m (hH s);
    do x <- Unify false fuel c (St m (tr (hm s))) w v;
    Ret (BRet (fst x, Hst (snd x) (hH s + size)))
  | CpTooMany _ => Ret BThrow
  | CpFd => Ret (BRet (UFd, s))
  end.

(** ** Copy of a contiguous term *)
Section CopyContArgs.
Variable copy : mem -> addr -> addr -> outcome mem.
Fixpoint copy_cont_args (n : nat) (m : mem) (q a : addr) : outcome mem :=
  match n with
  | O => UB
  | S O => copy m q a
  | S n => do m <- copy m q a; copy_cont_args n m (q + 1) (a + 1)
  end.
End CopyContArgs.

(** /repo/src/BipsPl/term_supp.c:484-553 (64 bits); an FD variable is outside the model
    (UB here; the theorems are about terms without any).  Old_Adr_To_New_Adr uses the
    current dst_adr and src_adr *)
Fixpoint Copy_Contiguous_Term (fuel : nat) (m : mem) (dst src : addr) : outcome mem :=
  match fuel with
  | O => NoFuel
  | S fuel =>
    do w <- rd_word m src;
    match w with
    | REF a =>
      let q := dst + (a - src) in
      let m := store m dst (Word (REF q)) in
      if src <? a then Copy_Contiguous_Term fuel m q a else Ret m
    | FDV _ => UB
    | FLT a =>
      let q := dst + (a - src) in
      do d <- rd_dbl m a;
      Ret (store (store m q (Dbl d)) dst (Word (FLT q)))
    | LST a =>
      let q := dst + (a - src) in
      copy_cont_args (Copy_Contiguous_Term fuel) 2 (store m dst (Word (LST q))) q a
    | STC a =>
      let q := dst + (a - src) in
      let m := store m dst (Word (STC q)) in
      do fn <- rd_func m a;
      copy_cont_args (Copy_Contiguous_Term fuel) (snd fn) (store m q (Func (fst fn) (snd fn))) (q + 1) (a + 1)
    | w => Ret (store m dst (Word w))
    end
  end.
