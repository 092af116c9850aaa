(** Grouping the solutions of bagof/3 and setof/3 by key.
    /repo/src/BipsPl/all_solut_c.c:493-603, all_solut.pl:78-89. *)
Require Import ZArith List Bool.
Require Import Verif.Term_Model Verif.Heap_Model Verif.Unify_Model.
Import ListNotations.
Open Scope Z_scope.

Section Group.
Variables (name : Z -> list Z) (nil : Z).

(** the loop of Group, all_solut_c.c:585-602; [lst] is lst_adr, [adr] the address of the pair
    Key-Value in Car(lst_adr).  The answer: the memory and the word all_sol_word that is
    returned ([None]: NOT_A_WAM_WORD).  UnTag_LST and UnTag_STC of a word of another
    tag are UB *)
Fixpoint group_loop (fuel : nat) (m : mem) (lst adr : addr) (key : word) : outcome (mem * option word) :=
  match fuel with
  | O => NoFuel
  | S fuel =>
    do v <- rd_word m (adr + 2);
    let m := store m lst (Word v) in
    do cdr <- rd_word m (lst + 1);
    do w <- deref fuel m cdr;
    if word_eqb w (ATM nil) then Ret (m, None)
    else
      match w with
      | LST lst' =>
        do car <- rd_word m lst';
        do w <- deref fuel m car;
        match w with
        | STC adr' =>
          do key1 <- rd_word m (adr' + 1);
          do x <- Term_Compare name fuel m key key1;
          if negb (x =? 0) then
            do rest <- rd_word m (lst + 1);
            Ret (store m (lst + 1) (Word (ATM nil)), Some rest)
          else group_loop fuel m lst' adr' key
        | _ => UB
        end
      | _ => UB
      end
  end.

(** all_solut_c.c:569-608 Group: memory, key word, rest *)
Definition Group (fuel : nat) (m : mem) (all : word) : outcome (mem * word * option word) :=
  do w <- deref fuel m all;
  match w with
  | LST lst =>
    do car <- rd_word m lst;
    do w <- deref fuel m car;
    match w with
    | STC adr =>
      do key <- rd_word m (adr + 1);
      do r <- group_loop fuel m lst adr key;
      Ret (fst r, key, snd r)
    | _ => UB
    end
  | _ => UB
  end.

(** The answers of '$group_solutions' (Pl_Group_Solutions_3 and Pl_Group_Solutions_Alt_0, all_solut_c.c:499-560) on a list that is not
    empty: for each the memory, the key word and the list word, to be unified with the last
    two arguments.  When there is a rest a choice point has been made or is kept with the
    rest as argument, and the next answer comes when the execution backtracks to it: the cells that
    existed when the answer was given are then as they were ([agree]; the trail: C12).  The assignments
    of Group itself are not trailed *)
Definition agree (m m2 : mem) : Prop := forall x, m x <> None -> m2 x = m x.
Inductive answers : mem -> word -> list (mem * word * word) -> Prop :=
| ans_last fuel m all m' key :
    Group fuel m all = Ret (m', key, None) -> answers m all [(m', key, all)]
| ans_more fuel m all m' key rest m2 l :
    Group fuel m all = Ret (m', key, Some rest) -> agree m' m2 -> answers m2 rest l ->
    answers m all ((m', key, all) :: l).
End Group.
