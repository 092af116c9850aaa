(** Dynamic predicates: /repo/src/BipsPl/dynam_supp.c, with the callers of /repo/src/BipsPl/assert_c.c and
    /repo/src/BipsPl/bc_supp.c reduced to the operations of the end of the file.
    Clauses and DynPInf records are blocks of memory with a number as address; a freed block is [None], and any
    access to it is [UB].  Addresses are not given again.  The hash tables of an index are a map from keys to
    chain headers (their nodes do not move when a table is extended, hash_tbl.c:148-180, C21).
    The counters nb_erased_clauses and longest_skip_erased count allocated clauses and are unbounded here. *)
Require Import ZArith List Bool.
Require Import Verif.Heap_Model.
Import ListNotations.
Open Scope Z_scope.

Definition upd {A} (f : nat -> A) (x : nat) (v : A) : nat -> A := fun y => if Nat.eqb y x then v else f y.
Definition ck_int (z : Z) : outcome Z := if (- 2 ^ 31 <=? z) && (z <? 2 ^ 31) then Ret z else UB.

(** ** Clauses and predicates *)
(** The first argument, as Index_From_First_Arg sees it; [AArity0]: there is none. *)
Inductive arg := AArity0 | AVar | AInt (n : Z) | AAtm (n : Z) | AFlt (n : Z) | ALst | AStc (n : Z).
(** the chains of a predicate (dynam_supp.h:113-130) *)
Inductive chain := Seq | KVar | KLst | KAtm (n : Z) | KInt (n : Z) | KStc (n : Z).
Definition chain_eqb (a b : chain) : bool :=
  match a, b with
  | Seq, Seq | KVar, KVar | KLst, KLst => true
  | KAtm m, KAtm n | KInt m, KInt n | KStc m, KStc n => m =? n
  | _, _ => false
  end.
(** dynam_supp.c:487-529; None is NO_INDEX *)
Definition Index_From_First_Arg (a : arg) : option chain :=
  match a with
  | AArity0 | AFlt _ => None
  | AVar => Some KVar
  | AInt n => Some (KInt n)
  | AAtm n => Some (KAtm n)
  | ALst => Some KLst
  | AStc n => Some (KStc n)
  end.
(** a header in a hash table (p_ind_htbl <> NULL) *)
Definition in_htbl (k : chain) : bool := match k with KAtm _ | KInt _ | KStc _ => true | _ => false end.
(** dynam_supp.h:68-83 *)
Record hdr := Hdr { h_first : option nat; h_scan : option nat; h_last : option nat }.
Record cell := Cell { c_next : option nat; c_prev : option nat }.
(** a pointer to an erased clause: NULL, a clause or ALL_MUST_BE_ERASED; and its bit 0 (the mark) *)
Inductive ebase := ENull | ECl (x : nat) | EAll.
Record eptr := EP { e_base : ebase; e_mark : bool }.
Definition e_null := EP ENull false.
Definition is_null (p : eptr) : bool := match p with EP ENull false => true | _ => false end.
(** dynam_supp.h:85-102; [p_ind_hdr] is the chain [c_key] of [c_dyn]; the term and the byte-code are [c_data] *)
Record clause := Clause { c_seq : cell; c_ind : cell; c_dyn : nat; c_key : option chain; c_no : Z; c_file : Z;
  c_stamp : Z; c_nexte : eptr; c_arg : arg; c_data : nat }.
(** dynam_supp.h:113-130 *)
Record dynp := Dynp { d_hd : chain -> option hdr; count_a : Z; count_z : Z; curr_stamp : Z; d_erased : eptr; d_next : option nat }.
(** dynam_supp.c:48 *)
Definition ALIVE := 2 ^ 64 - 1.
Definition GREATEST := 2 ^ 60 - 1.
(** dynam_supp.c:89-105 *)
Record scan := Scan { s_dyn : nat; s_stop : Z; s_stamp : Z; s_seq : bool; s_xxx : option nat; s_var : option nat; s_clause : option nat }.
(** what is done with the clauses that are found: clause/2, retract/1, a call *)
Inductive kind := KClause | KRetract | KBC.
(** Choice points, with the environments (the clauses of the byte-code frames) they keep. *)
Inductive frame := FOther (e : list nat) | FScan (k : kind) (sc : scan) (e : list nat).
Definition frame_env (f : frame) : list nat := match f with FOther e | FScan _ _ e => e end.
(** [pdyn]: pred->dyn; [fdyn]: first_dyn_with_erase; [env]: the byte-code frames reachable from E; [cur]: the
    clause whose byte-code is about to run *)
Record st := St { cls : nat -> option clause; nextc : nat; dyns : nat -> option dynp; nextd : nat; pdyn : nat -> option nat;
  fdyn : option nat; longest : Z; nb_erased : Z; stk : list frame; env : list nat; cur : option nat }.

Definition getc (s : st) (x : nat) : outcome clause := match cls s x with Some c => Ret c | None => UB end.
Definition getd (s : st) (d : nat) : outcome dynp := match dyns s d with Some D => Ret D | None => UB end.
Definition with_cls (s : st) (f : nat -> option clause) : st := St f (nextc s) (dyns s) (nextd s) (pdyn s) (fdyn s) (longest s) (nb_erased s) (stk s) (env s) (cur s).
Definition with_dyns (s : st) (f : nat -> option dynp) : st := St (cls s) (nextc s) f (nextd s) (pdyn s) (fdyn s) (longest s) (nb_erased s) (stk s) (env s) (cur s).
Definition putc (s : st) (x : nat) (c : clause) : st := with_cls s (upd (cls s) x (Some c)).
Definition putd (s : st) (d : nat) (D : dynp) : st := with_dyns s (upd (dyns s) d (Some D)).
Definition with_fdyn (s : st) (p : option nat) : st := St (cls s) (nextc s) (dyns s) (nextd s) (pdyn s) p (longest s) (nb_erased s) (stk s) (env s) (cur s).
Definition with_nb (s : st) (n : Z) : st := St (cls s) (nextc s) (dyns s) (nextd s) (pdyn s) (fdyn s) (longest s) n (stk s) (env s) (cur s).
Definition with_longest (s : st) (n : Z) : st := St (cls s) (nextc s) (dyns s) (nextd s) (pdyn s) (fdyn s) n (nb_erased s) (stk s) (env s) (cur s).
Definition with_stk (s : st) (l : list frame) (e : list nat) (c : option nat) : st := St (cls s) (nextc s) (dyns s) (nextd s) (pdyn s) (fdyn s) (longest s) (nb_erased s) l e c.
Definition with_pdyn (s : st) (f : nat -> option nat) : st := St (cls s) (nextc s) (dyns s) (nextd s) f (fdyn s) (longest s) (nb_erased s) (stk s) (env s) (cur s).

Definition cell_of (k : chain) (c : clause) : cell := match k with Seq => c_seq c | _ => c_ind c end.
Definition set_cell (k : chain) (c : clause) (v : cell) : clause :=
  match k with
  | Seq => Clause v (c_ind c) (c_dyn c) (c_key c) (c_no c) (c_file c) (c_stamp c) (c_nexte c) (c_arg c) (c_data c)
  | _ => Clause (c_seq c) v (c_dyn c) (c_key c) (c_no c) (c_file c) (c_stamp c) (c_nexte c) (c_arg c) (c_data c)
  end.
Definition set_hd (D : dynp) (k : chain) (h : option hdr) : dynp :=
  Dynp (fun k' => if chain_eqb k' k then h else d_hd D k') (count_a D) (count_z D) (curr_stamp D) (d_erased D) (d_next D).
Definition set_erased (D : dynp) (p : eptr) : dynp := Dynp (d_hd D) (count_a D) (count_z D) (curr_stamp D) p (d_next D).
Definition set_dnext (D : dynp) (p : option nat) : dynp := Dynp (d_hd D) (count_a D) (count_z D) (curr_stamp D) (d_erased D) p.
Definition set_counts (D : dynp) (a z : Z) : dynp := Dynp (d_hd D) a z (curr_stamp D) (d_erased D) (d_next D).
Definition set_stamp (D : dynp) (n : Z) : dynp := Dynp (d_hd D) (count_a D) (count_z D) n (d_erased D) (d_next D).
(** the header of a chain, through a pointer *)
Definition geth (s : st) (d : nat) (k : chain) : outcome hdr := do D <- getd s d; match d_hd D k with Some h => Ret h | None => UB end.
Definition puth (s : st) (d : nat) (k : chain) (h : hdr) : outcome st := do D <- getd s d; Ret (putd s d (set_hd D k (Some h))).
Definition upd_next (s : st) (k : chain) (x : nat) (p : option nat) : outcome st :=
  do c <- getc s x; Ret (putc s x (set_cell k c (Cell p (c_prev (cell_of k c))))).
Definition upd_prev (s : st) (k : chain) (x : nat) (p : option nat) : outcome st :=
  do c <- getc s x; Ret (putc s x (set_cell k c (Cell (c_next (cell_of k c)) p))).
Definition put_cell (s : st) (k : chain) (x : nat) (v : cell) : outcome st := do c <- getc s x; Ret (putc s x (set_cell k c v)).

(** ** Chains *)
(** dynam_supp.c:538-574 *)
Definition Add_To_2Chain (s : st) (d : nat) (k : chain) (x : nat) (asserta : bool) : outcome st :=
  do h <- geth s d k;
  match h_first h with
  | None => do s <- puth s d k (Hdr (Some x) (Some x) (Some x)); put_cell s k x (Cell None None)
  | Some f =>
    if asserta then
      do s <- put_cell s k x (Cell (Some f) None);
      do s <- puth s d k (Hdr (Some x) (Some x) (h_last h));
      upd_prev s k f (Some x)
    else match h_last h with
    | None => UB
    | Some l =>
      do s <- upd_next s k l (Some x);
      do s <- put_cell s k x (Cell None (Some l));
      puth s d k (Hdr (h_first h) (h_scan h) (Some x))
    end
  end.
(** dynam_supp.c:583-614 *)
Definition Remove_From_2Chain (s : st) (d : nat) (k : chain) (x : nat) : outcome st :=
  do c <- getc s x;
  let p := c_prev (cell_of k c) in
  let n := c_next (cell_of k c) in
  do h <- geth s d k;
  do s <- match p with None => puth s d k (Hdr n n (h_last h)) | Some p => upd_next s k p n end;
  do h <- geth s d k;
  match n with None => puth s d k (Hdr (h_first h) (h_scan h) p) | Some n => upd_prev s k n p end.
(** dynam_supp.c:623-637 *)
Definition Free_Clause (s : st) (x : nat) : outcome st :=
  do _ <- getc s x; Ret (with_nb (with_cls s (upd (cls s) x None)) (nb_erased s - 1)).
(** dynam_supp.c:646-680 *)
Definition Unlink_And_Free_Clause (s : st) (x : nat) : outcome st :=
  do c <- getc s x;
  do s <- Remove_From_2Chain s (c_dyn c) Seq x;
  do s <- match c_key c with
    | None => Ret s
    | Some k =>
      do s <- Remove_From_2Chain s (c_dyn c) k x;
      do c <- getc s x;
      match in_htbl k, c_prev (c_ind c), c_next (c_ind c) with
      | true, None, None => do D <- getd s (c_dyn c); Ret (putd s (c_dyn c) (set_hd D k None))
      | _, _, _ => Ret s
      end
    end;
  Free_Clause s x.

(** ** Reclamation *)
Section GC.
(** dynam_supp.c:52-58: 1000 and 100 (or 20 and 10) *)
Variables MAX_CLAUSES MAX_SKIP : Z.
Definition mark (s : st) (d : nat) : outcome st := do D <- getd s d; Ret (putd s d (set_erased D (EP (e_base (d_erased D)) true))).
(** choice points, dynam_supp.c:1288-1309 *)
Fixpoint mark_scans (s : st) (l : list frame) : outcome st :=
  match l with
  | [] => Ret s
  | FOther _ :: l => mark_scans s l
  | FScan _ sc _ :: l =>
    do D <- getd s (s_dyn sc);
    do s <- (if is_null (d_erased D) then Ret s else mark s (s_dyn sc));
    mark_scans s l
  end.
(** environments, dynam_supp.c:1311-1353; the walk through E and EB(B) is replaced by the list of the
    byte-code frames it meets *)
Fixpoint mark_envs (s : st) (l : list nat) : outcome st :=
  match l with [] => Ret s | x :: l => do c <- getc s x; do s <- mark s (c_dyn c); mark_envs s l end.
(** dynam_supp.c:1376-1380 *)
Fixpoint free_all (fuel : nat) (s : st) (p : option nat) : outcome st :=
  match fuel with
  | O => NoFuel
  | S fuel => match p with None => Ret s | Some x => do c <- getc s x; let n := c_next (c_seq c) in do s <- Free_Clause s x; free_all fuel s n end
  end.
(** dynam_supp.c:1394-1398 *)
Fixpoint free_erased (fuel : nat) (s : st) (p : eptr) : outcome st :=
  match fuel with
  | O => NoFuel
  | S fuel =>
    match p with
    | EP ENull false => Ret s
    | EP (ECl x) false => do c <- getc s x; let n := c_nexte c in do s <- Unlink_And_Free_Clause s x; free_erased fuel s n
    | _ => UB
    end
  end.
Definition no_tables (D : dynp) : dynp :=
  Dynp (fun k => if in_htbl k then None else d_hd D k) (count_a D) (count_z D) (curr_stamp D) (d_erased D) (d_next D).
(** dynam_supp.c:1355-1422; [last]: p_last_dyn, None is &first_dyn_with_erase *)
Definition set_last (s : st) (last : option nat) (p : option nat) : outcome st :=
  match last with None => Ret (with_fdyn s p) | Some d => do D <- getd s d; Ret (putd s d (set_dnext D p)) end.
Definition clean (s : st) (d : nat) : outcome st :=
  do D <- getd s d;
  match d_erased D with
  | EP EAll false =>
    do h <- geth s d Seq;
    do s <- free_all (S (nextc s)) s (h_first h);
    Ret (with_dyns s (upd (dyns s) d None))
  | p =>
    do s <- free_erased (S (nextc s)) s p;
    do D <- getd s d;
    let s := putd s d (set_dnext (set_erased D e_null) None) in
    do h <- geth s d Seq;
    match h_first h with
    | Some _ => Ret s
    | None => do D <- getd s d; Ret (putd s d (set_counts (no_tables D) (-1) 0))
    end
  end.
Fixpoint gc_loop (fuel : nat) (s : st) (last : option nat) (p : option nat) : outcome st :=
  match fuel with
  | O => NoFuel
  | S fuel =>
    match p with
    | None => Ret s
    | Some d =>
      do D <- getd s d;
      let d1 := d_next D in
      if e_mark (d_erased D) then gc_loop fuel (putd s d (set_erased D (EP (e_base (d_erased D)) false))) (Some d) d1
      else do s <- set_last s last (d_next D); do s <- clean s d; gc_loop fuel s last d1
    end
  end.
(** dynam_supp.c:1258-1428 *)
Definition GC_Clause (s : st) : outcome st :=
  if (nb_erased s <? MAX_CLAUSES) && (longest s <? MAX_SKIP) then Ret s
  else
    do s <- mark_scans s (stk s);
    do s <- mark_envs s (env s ++ flat_map frame_env (stk s));
    do s <- gc_loop (S (nextd s)) s None (fdyn s);
    Ret (with_longest s 0).

(** ** Updates *)
Definition new_dyn : dynp := Dynp (fun k => if in_htbl k then None else Some (Hdr None None None)) (-1) 0 0 e_null None.
(** dynam_supp.c:458-478, 331-333 *)
Definition the_dyn (s : st) (p : nat) : st * nat :=
  match pdyn s p with
  | Some d => (s, d)
  | None =>
    let d := nextd s in
    (St (cls s) (nextc s) (upd (dyns s) d (Some new_dyn)) (S d) (upd (pdyn s) p (Some d)) (fdyn s) (longest s) (nb_erased s) (stk s) (env s) (cur s), d)
  end.
(** dynam_supp.c:287-449 *)
Definition Add_Dynamic_Clause (s : st) (p : nat) (asserta : bool) (a : arg) (data : nat) (file : Z) : outcome st :=
  let '(s, d) := the_dyn s p in
  let key := Index_From_First_Arg a in
  do D <- getd s d;
  let x := nextc s in
  let no := if asserta then count_a D else count_z D in
  do n <- ck_int (if asserta then count_a D - 1 else count_z D + 1);
  let c := Clause (Cell None None) (Cell None None) d key no file ALIVE e_null a data in
  let s := St (upd (cls s) x (Some c)) (S x) (dyns s) (nextd s) (pdyn s) (fdyn s) (longest s) (nb_erased s) (stk s) (env s) (cur s) in
  do s <- Add_To_2Chain s d Seq x asserta;
  do D <- getd s d;
  let s := putd s d (if asserta then set_counts D n (count_z D) else set_counts D (count_a D) n) in
  match key with
  | None => Ret s
  | Some k =>
    do D <- getd s d;
    let s := match d_hd D k with Some _ => s | None => putd s d (set_hd D k (Some (Hdr None None None))) end in
    Add_To_2Chain s d k x asserta
  end.
(** first_for_scan is moved when it is the erased clause and there is a next one, dynam_supp.c:727-735 *)
Definition move_scan (s : st) (d : nat) (k : chain) (x : nat) : outcome st :=
  do c <- getc s x;
  do h <- geth s d k;
  match h_scan h, c_next (cell_of k c) with
  | Some y, Some n => if Nat.eqb y x then puth s d k (Hdr (h_first h) (Some n) (h_last h)) else Ret s
  | _, _ => Ret s
  end.
Definition link_dyn (s : st) (d : nat) : outcome st :=
  do D <- getd s d;
  if is_null (d_erased D) then Ret (with_fdyn (putd s d (set_dnext D (fdyn s))) (Some d)) else Ret s.
Definition set_erase (c : clause) (stamp : Z) (p : eptr) : clause :=
  Clause (c_seq c) (c_ind c) (c_dyn c) (c_key c) (c_no c) (c_file c) stamp p (c_arg c) (c_data c).
(** dynam_supp.c:690-742 *)
Definition Delete_Dynamic_Clause (s : st) (x : nat) : outcome st :=
  do c <- getc s x;
  if negb (c_stamp c =? ALIVE) then Ret s
  else
    let d := c_dyn c in
    do s <- link_dyn s d;
    do D <- getd s d;
    let s := putc s x (set_erase c (curr_stamp D) (d_erased D)) in
    let s := putd s d (set_erased D (EP (ECl x) false)) in
    let s := with_nb s (nb_erased s + 1) in
    do s <- move_scan s d Seq x;
    do s <- match c_key c with None => Ret s | Some k => move_scan s d k x end;
    GC_Clause s.
(** dynam_supp.c:753-776 *)
Fixpoint erase_file_loop (fuel : nat) (s : st) (p : option nat) (file : Z) : outcome st :=
  match fuel with
  | O => NoFuel
  | S fuel =>
    match p with
    | None => Ret s
    | Some x =>
      do c <- getc s x;
      do s <- (if c_file c =? file then Delete_Dynamic_Clause s x else Ret s);
      do c <- getc s x;
      erase_file_loop fuel s (c_next (c_seq c)) file
    end
  end.
Definition Erase_All_Clauses_Of_File (s : st) (d : nat) (file : Z) : outcome st :=
  do h <- geth s d Seq; do s <- erase_file_loop (S (nextc s)) s (h_first h) file; GC_Clause s.
(** dynam_supp.c:788-817 *)
Fixpoint count_alive (fuel : nat) (s : st) (p : option nat) (n : Z) : outcome Z :=
  match fuel with
  | O => NoFuel
  | S fuel =>
    match p with
    | None => Ret n
    | Some x => do c <- getc s x; count_alive fuel s (c_next (c_seq c)) (if c_stamp c =? ALIVE then n + 1 else n)
    end
  end.
Definition Erase_All (s : st) (d : nat) : outcome st :=
  do s <- link_dyn s d;
  do D <- getd s d;
  let s := putd s d (set_erased D (EP EAll false)) in
  do h <- geth s d Seq;
  do n <- count_alive (S (nextc s)) s (h_first h) (nb_erased s);
  GC_Clause (with_nb s n).
(** dynam_supp.c:838-905, without a file *)
Definition Update_Dynamic_Pred (s : st) (p : nat) : outcome st :=
  match pdyn s p with
  | None => Ret s
  | Some d => do s <- Erase_All s d; Ret (with_pdyn s (upd (pdyn s) p None))
  end.

(** ** Scans *)
Definition set_scan (sc : scan) (x v c : option nat) : scan := Scan (s_dyn sc) (s_stop sc) (s_stamp sc) (s_seq sc) x v c.
Definition no_of (s : st) (p : option nat) : outcome Z := match p with None => Ret GREATEST | Some x => do c <- getc s x; Ret (c_no c) end.
(** dynam_supp.c:1047-1148; the answer is the clause, the scan and longest_skip_erased *)
Fixpoint next_loop (fuel : nat) (s : st) (sc : scan) (nb : Z) : outcome (option nat * scan * Z) :=
  match fuel with
  | O => NoFuel
  | S fuel =>
    let nb := nb + 1 in
    do xxx_nb <- no_of s (s_xxx sc);
    do var_nb <- no_of s (s_var sc);
    if (xxx_nb <=? var_nb) && (xxx_nb =? GREATEST) then Ret (None, sc, longest s)
    else
      match (if xxx_nb <=? var_nb then s_xxx sc else s_var sc) with
      | None => UB
      | Some x =>
        do c <- getc s x;
        let sc :=
          if xxx_nb <=? var_nb then set_scan sc (c_next (if s_seq sc then c_seq c else c_ind c)) (s_var sc) None
          else set_scan sc (s_xxx sc) (c_next (c_ind c)) None in
        if s_stop sc <=? c_no c then Ret (None, sc, longest s)
        else if c_stamp c <=? s_stamp sc then next_loop fuel s sc nb
        else Ret (Some x, set_scan sc (s_xxx sc) (s_var sc) (Some x), Z.max nb (longest s))
      end
  end.
Definition Scan_Next (s : st) (sc : scan) : outcome (option nat * scan * st) :=
  do r <- next_loop (S (nextc s + nextc s)) s (set_scan sc (s_xxx sc) (s_var sc) None) (-1);
  let '(x, sc, n) := r in Ret (x, sc, with_longest s n).
Definition scan_of (D : dynp) (k : option chain) : option nat := match k with None => None | Some k => match d_hd D k with None => None | Some h => h_scan h end end.
(** dynam_supp.c:914-1038 *)
Definition Scan_Dynamic_Pred (s : st) (d : nat) (a : arg) (k : kind) : outcome (option nat * st) :=
  do s <- GC_Clause s;
  do D <- getd s d;
  let s := putd s d (set_stamp D ((curr_stamp D + 1) mod 2 ^ 64)) in
  let sc := match Index_From_First_Arg a with
    | None | Some KVar => Scan d (count_z D) (curr_stamp D) true (scan_of D (Some Seq)) None None
    | Some i => Scan d (count_z D) (curr_stamp D) false (scan_of D (Some i)) (scan_of D (Some KVar)) None
    end in
  do r <- Scan_Next s sc;
  let '(x, sc, s) := r in
  match x with
  | None => Ret (None, s)
  | Some x =>
    do r <- Scan_Next s sc;
    let '(y, sc, s) := r in
    match y with
    | None => Ret (Some x, s)
    | Some _ => Ret (Some x, with_stk s (FScan k sc (env s) :: stk s) (env s) (cur s))
    end
  end.

(** ** Operations *)
(** [u]: the clause that is found unifies.
    [Call]: clause/2, retract/1 (assert_c.c:121-279) or a call (bc_supp.c:1070-1102).  [Redo]: backtracking to a
    scan choice point.  [Other], [Back]: a choice point of another kind, backtracking to it.  [Cut n]: removes the
    n topmost choice points.  [Enter], [Leave], [Run]: the clause that was just called makes an environment, the
    environment is removed, its byte-code is used.  [Erase_Pred]: retractall/1 with distinct variables, abolish/1,
    consulting (assert_c.c:327-415). *)
Inductive op :=
  | Assert (p : nat) (asserta : bool) (a : arg) (data : nat) (file : Z)
  | Call (p : nat) (a : arg) (k : kind) (u : bool)
  | Redo (u : bool) | Other | Back | Cut (n : nat) | Enter | Leave | Run | Erase_Pred (p : nat).
(** the clause that was found, given to clause/2, retract/1 or the emulator *)
Definition found (s : st) (x : nat) (k : kind) (u : bool) : outcome (option (arg * nat) * st) :=
  do c <- getc s x;
  let r := Some (c_arg c, c_data c) in
  match k with
  | KClause => Ret (r, s)
  | KBC => Ret (r, with_stk s (stk s) (env s) (Some x))
  | KRetract => if u then do s <- Delete_Dynamic_Clause s x; Ret (r, s) else Ret (r, s)
  end.
Definition step (s : st) (o : op) : outcome (option (arg * nat) * st) :=
  let c0 := cur s in
  let s := with_stk s (stk s) (env s) None in
  match o with
  | Assert p asserta a data file => do s <- Add_Dynamic_Clause s p asserta a data file; Ret (None, s)
  | Call p a k u =>
    match pdyn s p with
    | None => Ret (None, s)
    | Some d => do r <- Scan_Dynamic_Pred s d a k; let '(x, s) := r in match x with None => Ret (None, s) | Some x => found s x k u end
    end
  | Redo u =>
    match stk s with
    | FScan k sc e :: l =>
      match s_clause sc with
      | None => UB
      | Some x =>
        do r <- Scan_Next s sc;
        let '(y, sc, s) := r in
        found (with_stk s (match y with None => l | Some _ => FScan k sc e :: l end) e None) x k u
      end
    | _ => Ret (None, s)
    end
  | Other => Ret (None, with_stk s (FOther (env s) :: stk s) (env s) None)
  | Back => match stk s with FOther e :: l => Ret (None, with_stk s l e None) | _ => Ret (None, s) end
  | Cut n => Ret (None, with_stk s (skipn n (stk s)) (env s) None)
  | Enter => match c0 with Some x => Ret (None, with_stk s (stk s) (x :: env s) None) | None => Ret (None, s) end
  | Leave => Ret (None, with_stk s (stk s) (tl (env s)) None)
  | Run => match env s with x :: _ => do c <- getc s x; Ret (Some (c_arg c, c_data c), s) | [] => Ret (None, s) end
  | Erase_Pred p => do s <- Update_Dynamic_Pred s p; Ret (None, s)
  end.
Fixpoint steps (s : st) (l : list op) : outcome (list (option (arg * nat)) * st) :=
  match l with
  | [] => Ret ([], s)
  | o :: l => do r <- step s o; do q <- steps (snd r) l; Ret (fst r :: fst q, snd q)
  end.
End GC.
Definition start : st := St (fun _ => None) 0 (fun _ => None) 0 (fun _ => None) None 0 0 [] [] None.
