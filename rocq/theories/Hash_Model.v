(** The generic hash table, /repo/src/EnginePl/hash_tbl.c, at the level of pointers.

    Memory has two kinds of blocks: nodes (struct hash_node, hash_tbl.h:58-63) and tables
    (header and array of pointers, hash_tbl.c:89-113).  Address 0 is NULL.  Any access to a
    block that is not allocated (NULL, freed) or outside the array is [UB].  The user data
    that follow the key in a node are one value.  The address returned by Malloc/Calloc
    is a parameter [a] of the functions that allocate; the theorems hold for any fresh
    address.  int counters do not overflow. *)
Require Import ZArith List Bool.
Require Import Verif.Heap_Model.
Import ListNotations.
Open Scope Z_scope.

Record node := Node { nnext : Z; nkey : Z; nval : Z }.
(** [bcap]: number of pointers really allocated; [bsize]: Tbl_Size *)
Record block := Block { bcap : Z; bsize : Z; bnb : Z; bslot : Z -> Z }.
Record hmem := Hmem { hnodes : Z -> option node; hblocks : Z -> option block }.

Definition upd {A} (f : Z -> A) (a : Z) (v : A) : Z -> A := fun x => if x =? a then v else f x.

(** a value of type HashNode *: the cell of an array or the field next of a node *)
Inductive loc := Slot (b i : Z) | NextOf (p : Z).

Definition rd_node (m : hmem) (p : Z) : outcome node :=
  match hnodes m p with Some n => Ret n | None => UB end.
Definition rd_block (m : hmem) (b : Z) : outcome block :=
  match hblocks m b with Some x => Ret x | None => UB end.
Definition wr_node (m : hmem) (p : Z) (n : node) : outcome hmem :=
  do _ <- rd_node m p; Ret (Hmem (upd (hnodes m) p (Some n)) (hblocks m)).
Definition wr_block (m : hmem) (b : Z) (x : block) : outcome hmem :=
  do _ <- rd_block m b; Ret (Hmem (hnodes m) (upd (hblocks m) b (Some x))).
Definition rd_loc (m : hmem) (t : loc) : outcome Z :=
  match t with
  | Slot b i => do x <- rd_block m b; if (0 <=? i) && (i <? bcap x) then Ret (bslot x i) else UB
  | NextOf p => do n <- rd_node m p; Ret (nnext n)
  end.
Definition wr_loc (m : hmem) (t : loc) (v : Z) : outcome hmem :=
  match t with
  | Slot b i => do x <- rd_block m b;
    if (0 <=? i) && (i <? bcap x) then wr_block m b (Block (bcap x) (bsize x) (bnb x) (upd (bslot x) i v)) else UB
  | NextOf p => do n <- rd_node m p; wr_node m p (Node v (nkey n) (nval n))
  end.
Definition set_nb (m : hmem) (b : Z) (f : Z -> Z) : outcome hmem :=
  do x <- rd_block m b; wr_block m b (Block (bcap x) (bsize x) (f (bnb x)) (bslot x)).
Definition free_node (m : hmem) (p : Z) : outcome hmem :=
  do _ <- rd_node m p; Ret (Hmem (upd (hnodes m) p None) (hblocks m)).
Definition free_block (m : hmem) (b : Z) : outcome hmem :=
  do _ <- rd_block m b; Ret (Hmem (hnodes m) (upd (hblocks m) b None)).

(** hash_tbl.c:101 (uintptr_t) (k) % (size), 64 bits *)
Definition W64 : Z := 2 ^ 64.
Definition Hash_Function (k size : Z) : outcome Z :=
  if size =? 0 then UB else Ret ((k mod W64) mod (size mod W64)).

(** hash_tbl.c:350-366; [t] is the address of the pointer being followed *)
Fixpoint locate_loop (fuel : nat) (m : hmem) (t : loc) (key : Z) : outcome loc :=
  match fuel with
  | O => NoFuel
  | S f =>
    do p <- rd_loc m t;
    if p =? 0 then Ret t
    else do n <- rd_node m p; if nkey n =? key then Ret t else locate_loop f m (NextOf p) key
  end.
Definition Hash_Locate (fuel : nat) (m : hmem) (b size key : Z) : outcome loc :=
  do n <- Hash_Function key size; locate_loop fuel m (Slot b n) key.

(** hash_tbl.c:119-137; a negative size is undefined (the header may not fit) *)
Definition Alloc_Table (m : hmem) (tbl_size a : Z) : outcome (hmem * Z) :=
  if tbl_size <? 0 then UB
  else Ret (Hmem (hnodes m) (upd (hblocks m) a (Some (Block tbl_size (if tbl_size <? 1 then 1 else tbl_size) 0 (fun _ => 0)))), a).

(** do { ... } while (++t < end_t) with t = array + i *)
Fixpoint slots_loop (n : nat) (i : Z) (m : hmem) (f : hmem -> Z -> outcome hmem) : outcome hmem :=
  match n with
  | O => Ret m
  | S n => do m <- f m i; slots_loop n (i + 1) m f
  end.
Definition do_slots (size : Z) (m : hmem) (f : hmem -> Z -> outcome hmem) : outcome hmem :=
  slots_loop (Z.to_nat (Z.max 1 size)) 0 m f.

(** hash_tbl.c:169-176, [p] runs through a chain of the old table *)
Fixpoint move_chain (fuel : nat) (F : nat) (m : hmem) (nb new_size p : Z) : outcome hmem :=
  match fuel with
  | O => NoFuel
  | S f =>
    if p =? 0 then Ret m
    else
      do n <- rd_node m p;
      do prev <- Hash_Locate F m nb new_size (nkey n);
      do m <- wr_loc m prev p;
      do m <- wr_loc m (NextOf p) 0;
      move_chain f F m nb new_size (nnext n)
  end.
(** hash_tbl.c:148-183 *)
Definition Realloc_Table (fuel : nat) (m : hmem) (b new_size a : Z) : outcome (hmem * Z) :=
  do x <- rd_block m b;
  do (m, nb) <- Alloc_Table m new_size a;
  do m <- set_nb m nb (fun _ => bnb x);
  do m <- do_slots (bsize x) m (fun m i => do p <- rd_loc m (Slot b i); move_chain fuel fuel m nb new_size p);
  do m <- free_block m b;
  Ret (m, nb).

(** hash_tbl.c:203-208 and 233-238 *)
Fixpoint free_chain (fuel : nat) (m : hmem) (p : Z) : outcome hmem :=
  match fuel with
  | O => NoFuel
  | S f => if p =? 0 then Ret m
           else do n <- rd_node m p; do m <- free_node m p; free_chain f m (nnext n)
  end.
(** hash_tbl.c:193-213 *)
Definition Free_Table (fuel : nat) (m : hmem) (b : Z) : outcome hmem :=
  do x <- rd_block m b;
  do m <- do_slots (bsize x) m (fun m i => do p <- rd_loc m (Slot b i); free_chain fuel m p);
  free_block m b.
(** hash_tbl.c:223-245 *)
Definition Delete_All (fuel : nat) (m : hmem) (b : Z) : outcome hmem :=
  do x <- rd_block m b;
  do m <- do_slots (bsize x) m
    (fun m i => do p <- rd_loc m (Slot b i); do m <- free_chain fuel m p; wr_loc m (Slot b i) 0);
  set_nb m b (fun _ => 0).

(** hash_tbl.c:255-286; [a] is what Malloc returns; the result is the address of the node *)
Definition Insert (fuel : nat) (m : hmem) (b key val : Z) (replace : bool) (a : Z) : outcome (hmem * Z) :=
  do x <- rd_block m b;
  do prev <- Hash_Locate fuel m b (bsize x) key;
  do p <- rd_loc m prev;
  if p =? 0 then
    let m := Hmem (upd (hnodes m) a (Some (Node 0 0 0))) (hblocks m) in   (* Malloc; p->next = NULL *)
    do m <- set_nb m b (fun n => n + 1);
    do m <- wr_loc m prev a;
    do n <- rd_node m a;
    do m <- wr_node m a (Node (nnext n) key val);                          (* memcpy *)
    Ret (m, a)
  else if negb replace then Ret (m, p)
  else do n <- rd_node m p; do m <- wr_node m p (Node (nnext n) key val); Ret (m, p).

(** hash_tbl.c:296-310; address of the node or NULL *)
Definition Find (fuel : nat) (m : hmem) (b key : Z) : outcome Z :=
  do x <- rd_block m b;
  do prev <- Hash_Locate fuel m b (bsize x) key;
  rd_loc m prev.

(** hash_tbl.c:320-338 *)
Definition Delete (fuel : nat) (m : hmem) (b key : Z) : outcome (hmem * bool) :=
  do x <- rd_block m b;
  do prev <- Hash_Locate fuel m b (bsize x) key;
  do p <- rd_loc m prev;
  if p =? 0 then Ret (m, false)
  else
    do n <- rd_node m p;
    do m <- wr_loc m prev (nnext n);
    do m <- free_node m p;
    do m <- set_nb m b (fun n => n - 1);
    Ret (m, true).

(** struct HashScan, hash_tbl.h:67-73; [sb]: the array the pointers lead to *)
Record scan := Scan { sb : Z; s_end : Z; s_cur_t : Z; s_cur_p : Z }.

(** hash_tbl.c:422-431, [n] bounds the number of turns *)
Fixpoint next_loop (n : nat) (m : hmem) (s : scan) (t : Z) : outcome (Z * scan) :=
  match n with
  | O => Ret (0, s)
  | S n =>
    let t := t + 1 in
    if t <? s_end s then
      do p <- rd_loc m (Slot (sb s) t);
      if p =? 0 then next_loop n m s t
      else do nd <- rd_node m p; Ret (p, Scan (sb s) (s_end s) t (nnext nd))
    else Ret (0, s)
  end.
(** hash_tbl.c:406-434; the node, NULL at the end *)
Definition Next (m : hmem) (s : scan) : outcome (Z * scan) :=
  let p := s_cur_p s in
  if negb (p =? 0) then do n <- rd_node m p; Ret (p, Scan (sb s) (s_end s) (s_cur_t s) (nnext n))
  else next_loop (Z.to_nat (s_end s - s_cur_t s)) m s (s_cur_t s).
(** hash_tbl.c:385-396 *)
Definition First (m : hmem) (b : Z) : outcome (Z * scan) :=
  do x <- rd_block m b;
  do p <- rd_loc m (Slot b 0);
  Next m (Scan b (bsize x) 0 p).

(** /repo/src/EnginePl/misc.c:223-229 Pl_Extend_HTBL_If_Needed *)
Definition Extend_If_Needed (fuel : nat) (m : hmem) (b a : Z) : outcome (hmem * Z) :=
  do x <- rd_block m b;
  if bsize x <=? bnb x then Realloc_Table fuel m b (bsize x * 2) a else Ret (m, b).
