(** The solutions of findall/3-4, bagof/3 and setof/3.
    /repo/src/BipsPl/all_solut_c.c, all_solut.pl. *)
Require Import ZArith List Bool.
Require Import Verif.Term_Model Verif.Heap_Model Verif.Unify_Model Verif.Copy_Model Verif.KeyVar_Model.
Import ListNotations.
Open Scope Z_scope.

(** OneSol, all_solut_c.c:60-68: sol_no, term_size and the address of term_word.  The
    chain by the field prev from the variable [sol] down to [dummy] (line 88) is a list,
    the newest first; the headers are not words of the memory *)
Record onesol := OneSol { s_no : Z; s_size : Z; s_adr : addr }.

(** sol->sol_no; [dummy] has number 0 *)
Definition top_no (sol : list onesol) : Z :=
  match sol with [] => 0 | s :: _ => s_no s end.

(** Free: nothing can be read there any more *)
Definition forget (a n : Z) (m : mem) : mem :=
  fun x => if (a <=? x) && (x <? a + n) then None else m x.

(** all_solut_c.c:343-350 Pl_Stop_Mark_1: the integer the argument becomes *)
Definition Stop_Mark (sol : list onesol) : Z := top_no sol.

(** all_solut_c.c:357-376 Pl_Store_Solution_1; [a] is where Malloc has put the field
    term_word.  sol_no is an int: UB if it overflows *)
Definition Store_Solution (fd : addr -> Z) (lim fuel : nat) (m : mem) (sol : list onesol) (w : word) (a : addr)
  : outcome (bres (mem * list onesol)) :=
  do size <- Term_Size fd fuel m w;
  do r <- Copy_Term lim fuel m a w;
  match r with
  | CpOk m => if top_no sol + 1 <? 2 ^ 31 then Ret (BRet (m, OneSol (top_no sol + 1) size a :: sol)) else UB
  | CpTooMany _ => Ret BThrow
  | CpFd => UB
  end.

(** the loop of Pl_Recover_Solutions_4, all_solut_c.c:418-432, with handle_key = 0; [hend] is
    the end of the heap: a store above it is a fatal error, [None] *)
Fixpoint recover (hend : addr) (n fuel : nat) (m : mem) (H p : addr) (sol : list onesol)
  : outcome (option (mem * addr * addr * list onesol)) :=
  match n with
  | O => Ret (Some (m, H, p, sol))
  | S n =>
    match sol with
    | [] => UB
    | s :: sol =>
      let m := store m (p - 1) (Word (LST p)) in
      let m := store m (p - 2) (Word (REF H)) in
      if hend <? H + s_size s then Ret None
      else
        do m <- Copy_Contiguous_Term fuel m H (s_adr s);
        recover hend n fuel (forget (s_adr s) (s_size s) m) (H + s_size s) (p - 2) sol
    end
  end.

(** all_solut_c.c:385-436 Pl_Recover_Solutions_4 up to the last unification: the new
    memory, H, the word to unify with the argument and [sol].  A negative number
    of solutions makes the loop run past the dummy: UB.  Lines 412-413 (H is
    put back to the end of the heap) only choose the message of the fatal error *)
Definition Recover_Solutions (hend : addr) (fuel : nat) (m : mem) (H : addr) (sol : list onesol) (stop : Z) (tail : word)
  : outcome (option (mem * addr * word * list onesol)) :=
  let nb := top_no sol - stop in
  if nb =? 0 then Ret (Some (m, H, tail, sol))
  else if nb <? 0 then UB
  else if hend <? H + 2 * nb then Ret None
  else
    do r <- recover hend (Z.to_nat nb) fuel m (H + 2 * nb) (H + 2 * nb) sol;
    match r with
    | None => Ret None
    | Some (m, H', p, sol) => Ret (Some (store m (H + 2 * nb - 1) (Word tail), H', LST p, sol))
    end.

(** the same with handle_key = 1 (bagof/3 and setof/3, all_solut.pl:82-84): line 426 links the variables of the
    keys, [vars] is pl_glob_dico_var up to key_var_ptr, [lim] is MAX_VAR_IN_TERM.  The result [RThrow]
    is the exception representation_error(too_many_variables) *)
Inductive rres := ROk (m : mem) (H p : addr) (sol : list onesol) | RFatal | RThrow.
Fixpoint recover_key (hend : addr) (lim n fuel : nat) (m : mem) (H p : addr) (sol : list onesol) (vars : list addr)
  : outcome rres :=
  match n with
  | O => Ret (ROk m H p sol)
  | S n =>
    match sol with
    | [] => UB
    | s :: sol =>
      let m := store m (p - 1) (Word (LST p)) in
      let m := store m (p - 2) (Word (REF H)) in
      if hend <? H + s_size s then Ret RFatal
      else
        do m <- Copy_Contiguous_Term fuel m H (s_adr s);
        do w <- rd_word m H;
        do r <- Handle_Key_Variables lim fuel m vars w;
        match r with
        | Go k => recover_key hend lim n fuel (forget (s_adr s) (s_size s) (k_m k)) (H + s_size s) (p - 2) sol (k_vars k)
        | _ => Ret RThrow
        end
    end
  end.
Definition Recover_Solutions_Key (hend : addr) (lim fuel : nat) (m : mem) (H : addr) (sol : list onesol) (stop : Z) (tail : word)
  : outcome (option (bres (mem * addr * word * list onesol))) :=
  let nb := top_no sol - stop in
  if nb =? 0 then Ret (Some (BRet (m, H, tail, sol)))
  else if nb <? 0 then UB
  else if hend <? H + 2 * nb then Ret None
  else
    do r <- recover_key hend lim (Z.to_nat nb) fuel m (H + 2 * nb) (H + 2 * nb) sol [];
    match r with
    | RFatal => Ret None
    | RThrow => Ret (Some BThrow)
    | ROk m H' p sol => Ret (Some (BRet (store m (H + 2 * nb - 1) (Word tail), H', LST p, sol)))
    end.

(** ** The executions of a program with findall/3, bagof/3 and setof/3

    [marks]: the variables Stop of the calls of '$store_solutions' (all_solut.pl:103-109)
    that are running, innermost first.  Between Pl_Stop_Mark_1 and
    Pl_Recover_Solutions_4 of a call (all_solut.pl:54-58, [EClose], or 81-84, [EBag]) anything can happen that
    is not findall: [ERun], an arbitrary change of the memory except of the blocks given by Malloc.
    '$store_solutions' can only be left by the second branch of its disjunction, followed by
    Pl_Recover_Solutions_4, or by an exception: [EThrow n] leaves n calls.  The exception of
    Pl_Recover_Solutions_4 itself is not a step: it leaves a part of the solutions *)
Record fs := Fs { f_m : mem; f_H : addr; f_sol : list onesol; f_marks : list Z }.

Inductive event :=
| ERun
| EOpen
| ESol (w : word) (a : addr) (t : term)
| EClose (tail w : word)
| EBag (tail w : word)
| EThrow (n : nat).

Section Step.
Variables (hend : addr) (fd : addr -> Z) (lim : nat).
Inductive step : fs -> event -> fs -> Prop :=
| st_run m H sol mk m' H' :
    (forall s x, In s sol -> s_adr s <= x < s_adr s + s_size s -> m' x = m x) ->
    step (Fs m H sol mk) ERun (Fs m' H' sol mk)
| st_open m H sol mk : step (Fs m H sol mk) EOpen (Fs m H sol (Stop_Mark sol :: mk))
| st_sol m H sol mk w t a m' sol' fuel :
    mk <> [] ->
    Store_Solution fd lim fuel m sol w a = Ret (BRet (m', sol')) ->
    step (Fs m H sol mk) (ESol w a t) (Fs m' H sol' mk)
| st_close m H sol stop mk tail m' H' w sol' fuel :
    Recover_Solutions hend fuel m H sol stop tail = Ret (Some (m', H', w, sol')) ->
    step (Fs m H sol (stop :: mk)) (EClose tail w) (Fs m' H' sol' mk)
| st_bag m H sol stop mk tail m' H' w sol' fuel :
    Recover_Solutions_Key hend lim fuel m H sol stop tail = Ret (Some (BRet (m', H', w, sol'))) ->
    step (Fs m H sol (stop :: mk)) (EBag tail w) (Fs m' H' sol' mk)
| st_throw m H sol mk n : (n <= length mk)%nat ->
    step (Fs m H sol mk) (EThrow n) (Fs m H sol (skipn n mk)).
Inductive steps : fs -> list event -> fs -> Prop :=
| sts_nil s : steps s [] s
| sts_cons s e s' es s'' : step s e s' -> steps s' es s'' -> steps s (e :: es) s''.
End Step.
