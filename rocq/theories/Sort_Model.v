(** sort/2, msort/2, keysort/2: the merge sort on an array of words.

    The array cells are numbered; [base] and [aux] are cell numbers.  The
    comparison function is a parameter (Pl_Term_Compare or Keysort_Cmp). *)
Require Import ZArith List Bool PeanoNat.
Import ListNotations.

Section Sort.
Variable A : Type.
Variable cmp : A -> A -> Z.

Definition store := nat -> A.

Definition upd (m : store) (p : nat) (x : A) : store :=
  fun i => if Nat.eqb i p then x else m i.

(** /repo/src/BipsPl/sort_c.c:263-275, the loop [while (n1 > 0 && n2 > 0)].
    Returns the memory and the final p, l1, n1, l2, n2.  [fuel] is n1 + n2 at
    the call. *)
Fixpoint merge_loop (fuel : nat) (m : store) (p l1 n1 l2 n2 : nat)
  : store * (nat * nat * nat * nat * nat) :=
  match fuel with
  | O => (m, (p, l1, n1, l2, n2))
  | S fuel =>
    match n1, n2 with
    | S n1', S n2' =>
      if (cmp (m l1) (m l2) <=? 0)%Z
      then merge_loop fuel (upd m p (m l1)) (S p) (S l1) n1' l2 n2
      else merge_loop fuel (upd m p (m l2)) (S p) l1 n1 (S l2) n2'
    | _, _ => (m, (p, l1, n1, l2, n2))
    end
  end.

(** /repo/src/BipsPl/sort_c.c:277-278, 284-285, 290-291:
    [while (n-- > 0) *p++ = *l++] *)
Fixpoint copy (m : store) (p l n : nat) : store :=
  match n with
  | O => m
  | S n => copy (upd m p (m l)) (S p) (S l) n
  end.

(** /repo/src/BipsPl/sort_c.c:295-304: [k] is n1, [n] the current count; returns
    the memory and the final n *)
Fixpoint dedup_loop (m : store) (base p k n : nat) : store * nat :=
  match k with
  | O => (m, n)
  | S k =>
    if (cmp (m base) (m p) <? 0)%Z
    then dedup_loop (upd m (S base) (m p)) (S base) (S p) k n
    else dedup_loop m base (S p) k (n - 1)
  end.

(** /repo/src/BipsPl/sort_c.c:239-307 Merge_Sort; [fuel >= n] *)
Fixpoint Merge_Sort (fuel : nat) (m : store) (base aux n : nat) (keep_dup : bool)
  : store * nat :=
  match fuel with
  | O => (m, n)
  | S fuel =>
    if n <=? 1 then (m, n)
    else
      let n1 := n / 2 in
      let n2 := n - n1 in
      let l1 := base in
      let l2 := base + n1 in
      let (m, n1) := Merge_Sort fuel m l1 aux n1 keep_dup in
      let (m, n2) := Merge_Sort fuel m l2 aux n2 keep_dup in
      let n := n1 + n2 in
      let '(m, (p, l1, n1, l2, n2)) := merge_loop n m aux l1 n1 l2 n2 in
      let m := copy m p l1 n1 in
      let p := p + n1 in
      if keep_dup then (copy m base aux (n - n2), n)
      else
        let m := copy m p l2 n2 in
        let m := upd m base (m aux) in
        dedup_loop m base (S aux) (n - 1) n
  end.

(** /repo/src/BipsPl/sort_c.c:131-164 Pl_Sort_List_2 once the list is in the
    array [arg]: cells 0 .. n-1, with the auxiliary array behind it.
    [sort_type] is 0 = sort/2, 1 = msort/2, 2 = keysort/2 and is passed as
    keep_dup.  The result is the list built by Pl_Mk_Proper_List. *)
Definition Sort_List (sort_type : nat) (dflt : A) (l : list A) : list A :=
  match l with
  | [] => []
  | [x] => [x]
  | _ =>
    let m := fun i => nth i l dflt in
    let n := length l in
    let (m, n) := Merge_Sort n m 0 n n (negb (Nat.eqb sort_type 0)) in
    map m (seq 0 n)
  end.

End Sort.
