(** The variables of the keys of bagof/3: the i-th variable of every key is made the same.
    /repo/src/BipsPl/all_solut_c.c:440-490. *)
Require Import ZArith List Bool.
Require Import Verif.Term_Model Verif.Heap_Model Verif.Unify_Model Verif.Copy_Model.
Import ListNotations.
Open Scope Z_scope.

(** [k_vars]: the table pl_glob_dico_var up to key_var_ptr; [k_next]: next_key_var_ptr as an
    index in it.  save_key_var_ptr is the parameter [save] *)
Record kst := Kst { k_m : mem; k_vars : list addr; k_next : nat }.

(** all_solut_c.c:467-490 Link_Key_Var; [lim] is MAX_VAR_IN_TERM *)
Definition Link_Key_Var (lim save : nat) (s : kst) (a : addr) : outcome (visit kst) :=
  if existsb (fun b => b =? a) (k_vars s) then Ret (Go s)
  else if Nat.ltb (k_next s) save then
    match nth_error (k_vars s) (k_next s) with
    | Some v => do w <- rd_word (k_m s) v; Ret (Go (Kst (store (k_m s) a (Word w)) (k_vars s) (S (k_next s))))
    | None => UB
    end
  else if Nat.leb lim (length (k_vars s)) then Ret (Throw s)
  else Ret (Go (Kst (k_m s) (k_vars s ++ [a]) (k_next s))).

(** /repo/src/BipsPl/term_supp.c:189-237 Pl_Treat_Vars_Of_Term with generic_var = TRUE and Link_Key_Var,
    which changes the memory that is visited; FD variables are not modelled (UB) *)
Section LinkArgs.
Variable one : kst -> word -> outcome (visit kst).
Fixpoint link_args (n : nat) (s : kst) (a : addr) : outcome (visit kst) :=
  match n with
  | O => UB
  | S n =>
    do w <- rd_word (k_m s) a;
    match n with
    | O => one s w
    | S _ => do r <- one s w;
      match r with Go s => link_args n s (a + 1) | r => Ret r end
    end
  end.
End LinkArgs.
Fixpoint Link_Vars (lim save fuel : nat) (s : kst) (w : word) : outcome (visit kst) :=
  match fuel with
  | O => NoFuel
  | S fuel =>
    do w <- deref fuel (k_m s) w;
    match w with
    | REF a => Link_Key_Var lim save s a
    | FDV _ => UB
    | LST a => link_args (Link_Vars lim save fuel) 2 s a
    | STC a => do fn <- rd_func (k_m s) a; link_args (Link_Vars lim save fuel) (snd fn) s (a + 1)
    | _ => Ret (Go s)
    end
  end.

(** all_solut_c.c:446-460 Handle_Key_Variables; [w] is the word of the pair Key-Value *)
Definition Handle_Key_Variables (lim fuel : nat) (m : mem) (vars : list addr) (w : word) : outcome (visit kst) :=
  do w <- deref fuel m w;
  match w with
  | STC adr => do k <- rd_word m (adr + 1); Link_Vars lim (length vars) fuel (Kst m vars 0) k
  | _ => UB
  end.
