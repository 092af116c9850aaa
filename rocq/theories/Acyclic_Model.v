(** acyclic_term/1, /repo/src/BipsPl/term_supp.c:636-766 (the version compiled).

    The mark stack, built above H in C, is a list here (top first).  The address of the
    C parameter [start_word] (a C variable, outside the Prolog stacks) is [sw]; the
    loop assigns it. *)
Require Import ZArith List Bool.
Require Import Verif.Heap_Model Verif.Unify_Model.
Import ListNotations.
Open Scope Z_scope.

(** restore record (value, address | 1) and check record (arity remaining, address) *)
Inductive entry := Restore (w : word) (a : addr) | Check (n : nat) (a : addr).

Definition CYCLIC_MARK : word := LST 0.

Record ast := Ast { am : mem; ast_stack : list entry; ok : bool }.

(** one iteration of the loop; [fuel] is for DEREF *)
Definition acyclic_step (sw : addr) (fuel : nat) (s : ast) (e : entry) (k : list entry) : outcome ast :=
  match e with
  | Restore w a => Ret (Ast (store (am s) a (Word w)) k (ok s))
  | Check n a =>
    if negb (ok s) then Ret (Ast (am s) k false)
    else
      do w <- rd_word (am s) a;
      let m := store (am s) sw (Word w) in          (* start_word = *adr *)
      match n with
      | O => UB                                     (* the arity would become -1 *)
      | S n' =>
        let k := match n' with O => k | _ => Check n' (a + 1) :: k end in
        do d <- deref fuel m w;
        if word_eqb d CYCLIC_MARK then Ret (Ast m k false)
        else
          match d with
          | LST b => Ret (Ast (store m a (Word CYCLIC_MARK)) (Check 2 b :: Restore w a :: k) true)
          | STC b => do fn <- rd_func m b;
            Ret (Ast (store m a (Word CYCLIC_MARK)) (Check (snd fn) (b + 1) :: Restore w a :: k) true)
          | _ => Ret (Ast m k true)
          end
      end
  end.

Fixpoint acyclic_loop (sw : addr) (fuel : nat) (s : ast) : outcome ast :=
  match ast_stack s with
  | [] => Ret s
  | e :: k =>
    match fuel with
    | O => NoFuel
    | S fuel => do s <- acyclic_step sw fuel s e k; acyclic_loop sw fuel s
    end
  end.

Definition Acyclic_Term_1 (sw : addr) (fuel : nat) (m : mem) (w : word) : outcome (bool * mem) :=
  do s <- acyclic_loop sw fuel (Ast (store m sw (Word w)) [Check 1 sw] true);
  Ret (ok s, am s).
