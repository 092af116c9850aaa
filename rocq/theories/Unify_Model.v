(** Binding of variables, trail, unification (with and without occurs check). *)
Require Import ZArith List Bool Floats.SpecFloat.
Require Import Verif.Term_Model Verif.Heap_Model.
Import ListNotations.
Open Scope Z_scope.

(** The registers read by the binding macros: HB1 (heap top of the current choice
    point), B (current choice point) and LSSA (start of the local stack).  The
    local stack lies above the global stack (wam_archi.def:116-119, the order of
    the stack declarations; Is_A_Local_Adr, wam_inst.h:197). *)
Record cfg := Cfg { HB1 : addr; BB : addr; LSSA : addr }.

(** Trail entries, wam_inst.h:96-109 and 492-529.  An entry TFC calls a C function
    on untrailing. *)
Inductive tentry : Type :=
| TUV (a : addr)
| TOV (a : addr) (c : cell)
| TMV (a : addr) (cs : list cell)
| TFC (f : Z) (args : list Z).

Record st := St { mm : mem; tr : list tentry }.     (* top of the trail first *)

Definition store (m : mem) (a : addr) (c : cell) : mem :=
  fun x => if x =? a then Some c else m x.

(** wam_inst.h:197 *)
Definition Is_A_Local_Adr (c : cfg) (a : addr) : bool := LSSA c <=? a.
(** wam_inst.h:451-452 *)
Definition Word_Needs_Trailing (c : cfg) (a : addr) : bool :=
  (a <? HB1 c) || (Is_A_Local_Adr c a && (a <? BB c)).
(** wam_inst.h:456-463 Bind_UV, 492 Trail_UV *)
Definition Bind_UV (c : cfg) (s : st) (a : addr) (w : word) : st :=
  let t := if Word_Needs_Trailing c a then TUV a :: tr s else tr s in
  St (store (mm s) a (Word w)) t.

(** wam_inst.h:130-132 Do_Copy_Of_Word *)
Definition Do_Copy_Of_Word (w : word) : word :=
  match w with FDV a => REF a | _ => w end.

(** result of a unification; [UFd]: the call reaches the FD solver
    (Fd_Unify_With_Integer, Fd_Unify_With_Fd_Var), which is not modelled here *)
Inductive ures := USucc | UFail | UFd.

Section Args.
(** one unification of two words *)
Variable uni : st -> word -> word -> outcome (ures * st).
(** the arguments [n >= 1]: all but the last by recursive calls, the last one by
    [goto terminal_rec] (unify.c:110-119, 134-142); [while (--i)] with an arity of
    0 would run away: UB *)
Fixpoint unify_args (n : nat) (s : st) (ua va : addr) : outcome (ures * st) :=
  match n with
  | O => UB
  | S n =>
    do u <- rd_word (mm s) ua;
    do v <- rd_word (mm s) va;
    match n with
    | O => uni s u v
    | S _ =>
      do r <- uni s u v;
      match r with
      | (USucc, s') => unify_args n s' (ua + 1) (va + 1)
      | r => Ret r
      end
    end
  end.
End Args.

Section Occurs.
Variable occ : word -> outcome bool.
Fixpoint occurs_args (n : nat) (m : mem) (a : addr) : outcome bool :=
  match n with
  | O => UB
  | S n =>
    do w <- rd_word m a;
    match n with
    | O => occ w
    | S _ => do b <- occ w; if b then Ret true else occurs_args n m (a + 1)
    end
  end.
End Occurs.

(** /repo/src/EnginePl/unify.c:186-226 *)
Fixpoint Check_If_Var_Occurs (fuel : nat) (m : mem) (var : addr) (w : word) : outcome bool :=
  match fuel with
  | O => NoFuel
  | S fuel =>
    do w <- deref fuel m w;
    match w with
    | REF a => Ret (a =? var)
    | LST a => occurs_args (Check_If_Var_Occurs fuel m var) 2 m a
    | STC a =>
      do fn <- rd_func m a;
      occurs_args (Check_If_Var_Occurs fuel m var) (snd fn) m (a + 1)
    | _ => Ret false
    end
  end.

(** /repo/src/EnginePl/unify.c:75-85 and 92-104: a variable and another
    (dereferenced) word; [oc] is OCCURS_CHECK *)
Definition unify_var (oc : bool) (fuel : nat) (c : cfg) (s : st) (a : addr) (w : word)
  : outcome (ures * st) :=
  do o <- (if oc && negb (Is_A_Local_Adr c a) then Check_If_Var_Occurs fuel (mm s) a w
           else Ret false);
  if o then Ret (UFail, s)
  else Ret (USucc, Bind_UV c s a (Do_Copy_Of_Word w)).

(** /repo/src/EnginePl/unify.c:106-172: two non variables *)
Definition unify_nonvar (uni : st -> word -> word -> outcome (ures * st))
  (s : st) (u v : word) : outcome (ures * st) :=
  if word_eqb u v then Ret (USucc, s) else
  match v, u with
  | LST b, LST a => unify_args uni 2 s a b
  | LST _, _ => Ret (UFail, s)
  | STC b, STC a =>
    do fu <- rd_func (mm s) a;
    do fv <- rd_func (mm s) b;
    if (fst fu =? fst fv) && Nat.eqb (snd fu) (snd fv)
    then unify_args uni (snd fu) s (a + 1) (b + 1)
    else Ret (UFail, s)
  | STC _, _ => Ret (UFail, s)
  | INT _, FDV _ => Ret (UFd, s)
  | FDV _, INT _ => Ret (UFd, s)
  | FDV _, FDV _ => Ret (UFd, s)
  | FDV _, _ => Ret (UFail, s)
  | FLT b, FLT a =>
    do d1 <- rd_dbl (mm s) a;
    do d2 <- rd_dbl (mm s) b;
    Ret (if SFeqb d1 d2 then USucc else UFail, s)
  | _, _ => Ret (UFail, s)
  end.

(** /repo/src/EnginePl/unify.c:49-173 *)
Fixpoint Unify (oc : bool) (fuel : nat) (c : cfg) (s : st) (u v : word) : outcome (ures * st) :=
  match fuel with
  | O => NoFuel
  | S fuel =>
    do u <- deref fuel (mm s) u;
    do v <- deref fuel (mm s) v;
    match u with
    | REF a =>
      match v with
      | REF b =>
        if b <? a then Ret (USucc, Bind_UV c s a (REF b))
        else if a <? b then Ret (USucc, Bind_UV c s b (REF a))
        else Ret (USucc, s)
      | _ => unify_var oc fuel c s a v
      end
    | _ =>
      match v with
      | REF b => unify_var oc fuel c s b u
      | _ => unify_nonvar (Unify oc fuel c) s u v
      end
    end
  end.
