(** Uses of the generic hash table (C21): histories of operations and scans. *)
Require Import ZArith List Bool.
Require Import Verif.Heap_Model Verif.Hash_Model Verif.Hash_Spec.
Import ListNotations.
Open Scope Z_scope.

(** operations; [a] is the address that Malloc/Calloc returns *)
Inductive op :=
| OInsert (k v : Z) (replace : bool) (a : Z)
| ODelete (k : Z)
| ODelete_All
| ORealloc (size a : Z)
| OExtend (a : Z).
Definition run_op (fuel : nat) (m : hmem) (b : Z) (o : op) : outcome (hmem * Z) :=
  match o with
  | OInsert k v r a => do (m, _) <- Insert fuel m b k v r a; Ret (m, b)
  | ODelete k => do (m, _) <- Delete fuel m b k; Ret (m, b)
  | ODelete_All => do m <- Delete_All fuel m b; Ret (m, b)
  | ORealloc size a => Realloc_Table fuel m b size a
  | OExtend a => Extend_If_Needed fuel m b a
  end.
Fixpoint run_ops (fuel : nat) (m : hmem) (b : Z) (os : list op) : outcome (hmem * Z) :=
  match os with
  | [] => Ret (m, b)
  | o :: os => do (m, b) <- run_op fuel m b o; run_ops fuel m b os
  end.
(** what they mean *)
Definition spec_op (f : map_) (o : op) : map_ :=
  match o with
  | OInsert k v r _ => m_insert f k v r
  | ODelete k => m_del f k
  | ODelete_All => m_empty
  | ORealloc _ _ | OExtend _ => f
  end.
Definition spec_ops (f : map_) (os : list op) : map_ := fold_left spec_op os f.
(** the allocators return free blocks, sizes are positive int *)
Definition INT_MAX : Z := 2 ^ 31 - 1.
Definition legal_op (m : hmem) (b : Z) (o : op) : Prop :=
  match o with
  | OInsert _ _ _ a => hnodes m a = None /\ a <> 0
  | ORealloc size a => hblocks m a = None /\ 1 <= size <= INT_MAX
  | OExtend a => hblocks m a = None /\ forall x, hblocks m b = Some x -> bsize x * 2 <= INT_MAX
  | _ => True
  end.
Fixpoint legal_ops (fuel : nat) (m : hmem) (b : Z) (os : list op) : Prop :=
  match os with
  | [] => True
  | o :: os => legal_op m b o /\ forall m' b', run_op fuel m b o = Ret (m', b') -> legal_ops fuel m' b' os
  end.

(** for (p = First(b, &s); p; p = Next(&s)) { read *p; the operations of the script } -
    at most [n] turns.  Result: the elements seen, whether the end was reached, memory *)
Fixpoint visit (n : nat) (fuel : nat) (m : hmem) (b : Z) (p : Z) (s : scan) (script : list (list op)) : outcome (list (Z * Z) * bool * hmem) :=
  if p =? 0 then Ret ([], true, m)
  else
    match n with
    | O => Ret ([], false, m)
    | S n =>
      do nd <- rd_node m p;
      do (m, _) <- run_ops fuel m b (hd [] script);
      do (p, s) <- Next m s;
      do (l, fin, m) <- visit n fuel m b p s (tl script);
      Ret ((nkey nd, nval nd) :: l, fin, m)
    end.
Definition scan_table (n : nat) (fuel : nat) (m : hmem) (b : Z) (script : list (list op)) : outcome (list (Z * Z) * bool * hmem) :=
  do (p, s) <- First m b; visit n fuel m b p s script.

(** what the body of the loop may do, [seen] being the keys already returned: insert a
    key that has not been seen or that is in the table, delete a key that has been seen *)
Definition scan_op (f : map_) (seen : list Z) (o : op) : Prop :=
  match o with
  | OInsert k _ _ _ => ~ In k seen \/ f k <> None
  | ODelete k => In k seen
  | _ => False
  end.
Fixpoint scan_ops (fuel : nat) (m : hmem) (b : Z) (f : map_) (seen : list Z) (os : list op) : Prop :=
  match os with
  | [] => True
  | o :: os => legal_op m b o /\ scan_op f seen o /\ forall m' b', run_op fuel m b o = Ret (m', b') -> scan_ops fuel m' b' (spec_op f o) seen os
  end.
Fixpoint legal_visit (n : nat) (fuel : nat) (m : hmem) (b : Z) (f : map_) (seen : list Z) (p : Z) (s : scan) (script : list (list op)) : Prop :=
  match n with
  | O => True
  | S n =>
    p = 0 \/
    (forall nd, rd_node m p = Ret nd ->
     scan_ops fuel m b f (nkey nd :: seen) (hd [] script) /\
     forall m' b' p' s', run_ops fuel m b (hd [] script) = Ret (m', b') -> Next m' s = Ret (p', s') ->
     legal_visit n fuel m' b (spec_ops f (hd [] script)) (nkey nd :: seen) p' s' (tl script))
  end.
Definition legal_scan (n : nat) (fuel : nat) (m : hmem) (b : Z) (f : map_) (script : list (list op)) : Prop :=
  forall p s, First m b = Ret (p, s) -> legal_visit n fuel m b f [] p s script.
