(** The Prolog memory and the functions walking through it.

    A word is a tagged value (see Word_Model for the bit level encoding).
    A memory cell contains a tagged word, a functor/arity word or a double.
    Addresses are counted in words.  Reading an absent cell, or reading a cell
    of the wrong kind, is undefined behaviour: outcome [UB].  Functions whose C
    version loops or recurses take a fuel; [NoFuel] means the fuel was not
    enough (the theorems say when some fuel is enough). *)
Require Import ZArith List Bool Floats.SpecFloat.
Require Import Verif.Term_Model.
Import ListNotations.
Open Scope Z_scope.

Definition addr := Z.

(** /repo/src/EnginePl/wam_archi.def:92-101 *)
Inductive word : Type :=
| REF (a : addr)
| LST (a : addr)
| STC (a : addr)
| ATM (i : Z)
| FLT (a : addr)
| FDV (a : addr)
| INT (n : Z).

Inductive cell : Type :=
| Word (w : word)
| Func (f : Z) (n : nat)      (* Functor_Arity(f, n), wam_inst.h:118 *)
| Dbl (d : spec_float).       (* Pl_Global_Push_Float, wam_inst.c:1362 *)

Definition mem := addr -> option cell.

Definition word_eqb (u v : word) : bool :=
  match u, v with
  | REF a, REF b | LST a, LST b | STC a, STC b | ATM a, ATM b
  | FLT a, FLT b | FDV a, FDV b | INT a, INT b => a =? b
  | _, _ => false
  end.

Inductive outcome (A : Type) : Type :=
| Ret (x : A)
| UB
| NoFuel.
Arguments Ret {A} x.
Arguments UB {A}.
Arguments NoFuel {A}.

Definition bind {A B} (o : outcome A) (f : A -> outcome B) : outcome B :=
  match o with Ret x => f x | UB => UB | NoFuel => NoFuel end.
Notation "'do' x <- o ; k" := (bind o (fun x => k)) (at level 200, x pattern, k at level 200).

Definition rd_word (m : mem) (a : addr) : outcome word :=
  match m a with Some (Word w) => Ret w | _ => UB end.
Definition rd_func (m : mem) (a : addr) : outcome (Z * nat) :=
  match m a with Some (Func f n) => Ret (f, n) | _ => UB end.
Definition rd_dbl (m : mem) (a : addr) : outcome spec_float :=
  match m a with Some (Dbl d) => Ret d | _ => UB end.

(** /repo/src/EnginePl/wam_inst.h:426-445 DEREF *)
Fixpoint deref (fuel : nat) (m : mem) (w : word) : outcome word :=
  match fuel with
  | O => NoFuel
  | S fuel =>
    match w with
    | REF a =>
      do w' <- rd_word m a;
      if word_eqb w' w then Ret w' else deref fuel m w'
    | _ => Ret w
    end
  end.

Definition ATOM_DOT : Z := 46.          (* ATOM_CHAR('.') *)

(** /repo/src/BipsPl/c_supp.c:1389-1414 Pl_Rd_Compound on a dereferenced word:
    functor, arity, address of the first argument *)
Definition rd_compound (m : mem) (w : word) : outcome (option (Z * nat * addr)) :=
  match w with
  | LST a => Ret (Some (ATOM_DOT, 2%nat, a))
  | STC a => do fn <- rd_func m a; Ret (Some (fst fn, snd fn, a + 1))
  | _ => Ret None
  end.

(** loop over [n] arguments, term_supp.c:174-176 *)
Fixpoint cmp_args (cmp : word -> word -> outcome Z) (m : mem) (n : nat) (ua va : addr)
  : outcome Z :=
  match n with
  | O => Ret 0
  | S n =>
    do u <- rd_word m ua;
    do v <- rd_word m va;
    do x <- cmp u v;
    if negb (x =? 0) then Ret x else cmp_args cmp m n (ua + 1) (va + 1)
  end.

(** /repo/src/BipsPl/term_supp.c:90-179.  [name] is pl_atom_tbl[].name. *)
Fixpoint Term_Compare (name : Z -> list Z) (fuel : nat) (m : mem) (u v : word) : outcome Z :=
  match fuel with
  | O => NoFuel
  | S fuel =>
    do u <- deref fuel m u;
    do v <- deref fuel m v;
    match u with
    | REF a => match v with REF b => Ret (a - b) | _ => Ret (-1) end
    | FDV a =>
      match v with REF _ => Ret 1 | FDV b => Ret (a - b) | _ => Ret (-1) end
    | FLT a =>
      match v with
      | REF _ | FDV _ => Ret 1
      | FLT b => do d1 <- rd_dbl m a; do d2 <- rd_dbl m b; Ret (fltcmp d1 d2)
      | _ => Ret (-1)
      end
    | INT x =>
      match v with
      | REF _ | FDV _ | FLT _ => Ret 1
      | INT y => Ret (x - y)
      | _ => Ret (-1)
      end
    | ATM i =>
      match v with
      | REF _ | FDV _ | FLT _ | INT _ => Ret 1
      | ATM j => Ret (strcmp (name i) (name j))
      | _ => Ret (-1)
      end
    | _ =>
      do cv <- rd_compound m v;
      match cv with
      | None => Ret 1
      | Some (vf, vn, va) =>
        do cu <- rd_compound m u;
        match cu with
        | None => UB
        | Some (uf, un, ua) =>
          let nu := Z.of_nat un in let nv := Z.of_nat vn in
          if negb (nu =? nv) then Ret (nu - nv)
          else if negb (uf =? vf) then Ret (strcmp (name uf) (name vf))
          else cmp_args (Term_Compare name fuel m) m un ua va
        end
      end
    end
  end.

(** /repo/src/BipsPl/sort_c.c:218-228 Keysort_Cmp: both words are dereferenced
    structures '-'/2 *)
Definition Keysort_Cmp (name : Z -> list Z) (fuel : nat) (m : mem) (u v : word) : outcome Z :=
  match u, v with
  | STC a, STC b =>
    do ku <- rd_word m (a + 1);
    do kv <- rd_word m (b + 1);
    Term_Compare name fuel m ku kv
  | _, _ => UB
  end.

(** ** What a word stands for

    [den m w t]: in memory [m] the word [w] is the finite term [t]. *)
Inductive den (m : mem) : word -> term -> Prop :=
| den_var a : m a = Some (Word (REF a)) -> den m (REF a) (TVar a)
| den_ref a w t : m a = Some (Word w) -> w <> REF a -> den m w t -> den m (REF a) t
| den_fdv a : den m (FDV a) (TFdv a)
| den_flt a d : m a = Some (Dbl d) -> den m (FLT a) (TFlt d)
| den_int n : den m (INT n) (TInt n)
| den_atm i : den m (ATM i) (TAtm i)
| den_lst a t1 t2 : den_args m a [t1; t2] -> den m (LST a) (TCmp ATOM_DOT [t1; t2])
| den_stc a f ts : m a = Some (Func f (length ts)) -> den_args m (a + 1) ts ->
    den m (STC a) (TCmp f ts)
with den_args (m : mem) : addr -> list term -> Prop :=
| dena_nil a : den_args m a []
| dena_cons a w t ts : m a = Some (Word w) -> den m w t -> den_args m (a + 1) ts ->
    den_args m a (t :: ts).

Scheme den_mut := Induction for den Sort Prop
  with den_args_mut := Induction for den_args Sort Prop.
Combined Scheme den_both from den_mut, den_args_mut.
