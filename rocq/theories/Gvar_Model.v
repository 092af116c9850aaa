(** Global variables and global arrays.  /repo/src/BipsPl/g_var_inl_c.c:54-100, 521-1304.

    Blocks and undo records are obtained by malloc: they are numbered, a number is not used
    again (nor by realloc), so each access after free is seen.  The terms are opaque.  Not
    modelled: the selectors T-N (Get_Target_From_Selector, G_Assign_Arg), the counters (C40),
    the words of the copied terms (C11) and failures of malloc.  The depth of recursion is
    bounded by the number of blocks allocated so far. *)
Require Import ZArith List Bool Arith.
Require Import Verif.Heap_Model.
Import ListNotations.
Open Scope nat_scope.

(** a word: an integer or another term *)
Inductive gword : Type := GInt (n : Z) | GTerm (x : Z).

(** the fields size and val of GVarElt, 66-72 *)
Inductive content : Type :=
| CLink (w : gword)               (* size = 0 *)
| CCopy (b : nat)                 (* size > 0; val: the block of the copy *)
| CArr (n : nat) (b : nat)        (* size = -n; val: the block of the elements *)
| CEnd                            (* size = G_IMPOSSIBLE_SIZE *)
| CJunk.                          (* not initialized *)
Record elt : Type := Elt { e_c : content; e_u : option nat }.
Inductive blk : Type := BTerm (w : gword) | BArr (l : list elt).
(** GVarElt *: block and index *)
Definition loc : Type := (nat * nat)%type.
(** 77-84 *)
Record undo : Type := Undo { u_loc : option loc; u_save : content; u_next : option nat; u_prev : option nat }.

(** the blocks, the undo records, pl_atom_tbl[].info, the next number, the undo records in
    the trail (last first) *)
Record gst : Type := Gst {
  hp : nat -> option blk;
  un : nat -> option undo;
  info : Z -> option nat;
  nb : nat;
  tr : list nat }.

Definition upd {A : Type} (f : nat -> A) (k : nat) (x : A) : nat -> A := fun n => if n =? k then x else f n.
Definition set_hp (s : gst) (h : nat -> option blk) : gst := Gst h (un s) (info s) (nb s) (tr s).
Definition set_un (s : gst) (u : nat -> option undo) : gst := Gst (hp s) u (info s) (nb s) (tr s).

Definition malloc (x : blk) (s : gst) : nat * gst :=
  (nb s, Gst (upd (hp s) (nb s) (Some x)) (un s) (info s) (S (nb s)) (tr s)).
Definition free (b : nat) (s : gst) : outcome gst :=
  match hp s b with Some _ => Ret (set_hp s (upd (hp s) b None)) | None => UB end.

Definition cell (h : nat -> option blk) (L : loc) : option elt :=
  match h (fst L) with Some (BArr l) => nth_error l (snd L) | _ => None end.
(** *g_elem; a field of an element not initialized is not read *)
Definition rd (L : loc) (s : gst) : outcome elt :=
  match cell (hp s) L with
  | Some e => match e_c e with CJunk => UB | _ => Ret e end
  | None => UB
  end.
Fixpoint set_nth {A : Type} (l : list A) (i : nat) (x : A) : list A :=
  match l, i with
  | [], _ => []
  | _ :: r, O => x :: r
  | y :: r, S i => y :: set_nth r i x
  end.
(** *g_elem = e *)
Definition wr (L : loc) (e : elt) (s : gst) : outcome gst :=
  match hp s (fst L) with
  | Some (BArr l) =>
    if snd L <? length l then Ret (set_hp s (upd (hp s) (fst L) (Some (BArr (set_nth l (snd L) e))))) else UB
  | _ => UB
  end.
(** g_elem->size = ..., g_elem->val = ... *)
Definition wr_c (L : loc) (c : content) (s : gst) : outcome gst :=
  do e <- rd L s; wr L (Elt c (e_u e)) s.
(** g_elem->undo = u *)
Definition wr_u (L : loc) (u : option nat) (s : gst) : outcome gst :=
  do e <- rd L s; wr L (Elt (e_c e) u) s.
Definition rd_term (b : nat) (s : gst) : outcome gword :=
  match hp s b with Some (BTerm w) => Ret w | _ => UB end.
Definition rd_undo (u : nat) (s : gst) : outcome undo :=
  match un s u with Some r => Ret r | None => UB end.
Definition wr_undo (u : nat) (r : undo) (s : gst) : outcome gst :=
  match un s u with Some _ => Ret (set_un s (upd (un s) u (Some r))) | None => UB end.

(** for (i = i0; ...; i++) step(i), k times *)
Fixpoint loop (step : nat -> gst -> outcome gst) (k i : nat) (s : gst) : outcome gst :=
  match k with O => Ret s | S k => do s <- step i s; loop step k (S i) s end.

(** 1068-1069: for(u = ...; u; u = u->next) u->g_elem = NULL *)
Fixpoint invalidate (fuel : nat) (u : option nat) (s : gst) : outcome gst :=
  match u with
  | None => Ret s
  | Some u =>
    match fuel with
    | O => NoFuel
    | S fuel =>
      do r <- rd_undo u s;
      do s <- wr_undo u (Undo None (u_save r) (u_next r) (u_prev r)) s;
      invalidate fuel (u_next r) s
    end
  end.

(** 1059-1092 G_Free_Element *)
Fixpoint free_element (fuel : nat) (reinit_undo : bool) (L : loc) (s : gst) : outcome gst :=
  match fuel with
  | O => NoFuel
  | S fuel =>
    do e <- rd L s;
    do s <- (if reinit_undo then do s <- invalidate (nb s) (e_u e) s; wr_u L None s else Ret s);
    match e_c e with
    | CLink _ => Ret s
    | CCopy b => free b s
    | CArr n b =>
      do s <- loop (fun i => free_element fuel reinit_undo (b, i)) n 0 s;
      do last <- rd (b, n) s;
      do s <- match e_c last with CEnd => Ret s | _ => free_element fuel reinit_undo (b, n) s end;
      free b s
    | CEnd | CJunk => UB
    end
  end.
Definition G_Free_Element (reinit_undo : bool) (L : loc) (s : gst) : outcome gst :=
  free_element (S (nb s)) reinit_undo L s.

Definition junk : elt := Elt CJunk None.

(** 1101-1146 G_Copy_Element *)
Fixpoint copy_element (fuel : nat) (dst src : loc) (s : gst) : outcome gst :=
  match fuel with
  | O => NoFuel
  | S fuel =>
    do e <- rd src s;
    match e_c e with
    | CLink w => wr dst (Elt (CLink w) None) s
    | CCopy b =>
      do w <- rd_term b s;
      let (b', s) := malloc (BTerm w) s in
      wr dst (Elt (CCopy b') None) s
    | CArr n b =>
      let (b', s) := malloc (BArr (repeat junk (S n))) s in
      do s <- wr dst (Elt (CArr n b') None) s;
      do s <- loop (fun i => copy_element fuel (b', i) (b, i)) n 0 s;
      do last <- rd (b, n) s;
      match e_c last with
      | CEnd => wr (b', n) last s
      | _ => copy_element fuel (b', n) (b, n) s
      end
    | CEnd | CJunk => UB
    end
  end.
Definition G_Copy_Element (dst src : loc) (s : gst) : outcome gst := copy_element (S (nb s)) dst src s.

(** 1155-1174 *)
Definition G_Trail_For_Backtrack (L : loc) (save : content) (s : gst) : outcome gst :=
  do e <- rd L s;
  let u := nb s in
  let s := Gst (hp s) (upd (un s) u (Some (Undo (Some L) save (e_u e) None))) (info s) (S (nb s)) (tr s) in
  do s <- match e_u e with
          | Some n => do r <- rd_undo n s; wr_undo n (Undo (u_loc r) (u_save r) (u_next r) (Some u)) s
          | None => Ret s
          end;
  do s <- wr_u L (Some u) s;
  Ret (Gst (hp s) (un s) (info s) (nb s) (u :: tr s)).

(** 1183-1206 *)
Definition G_Untrail (u : nat) (s : gst) : outcome gst :=
  do r <- rd_undo u s;
  do s <- match u_loc r with
          | Some L => do s <- G_Free_Element false L s; wr_c L (u_save r) s
          | None => Ret s
          end;
  do s <- match u_next r with
          | Some n => do q <- rd_undo n s; wr_undo n (Undo (u_loc q) (u_save q) (u_next q) (u_prev r)) s
          | None => Ret s
          end;
  do s <- match u_prev r with
          | Some p => do q <- rd_undo p s; wr_undo p (Undo (u_loc q) (u_save q) (u_next r) (u_prev q)) s
          | None => match u_loc r with Some L => wr_u L (u_next r) s | None => Ret s end
          end;
  do _ <- rd_undo u s;
  Ret (set_un s (upd (un s) u None)).
(** the trail down to the length [n] *)
Fixpoint pops (l : list nat) (n : nat) (s : gst) : outcome gst :=
  match l with
  | [] => Ret s
  | u :: r =>
    if length l <=? n then Ret s
    else do s <- G_Untrail u s; pops r n (Gst (hp s) (un s) (info s) (nb s) r)
  end.
Definition Untrail (n : nat) (s : gst) : outcome gst := pops (tr s) n s.

(** 808-809: for (u = dst->undo; u; u = u->next) u->g_elem = dst *)
Fixpoint retarget (fuel : nat) (u : option nat) (L : loc) (s : gst) : outcome gst :=
  match u with
  | None => Ret s
  | Some u =>
    match fuel with
    | O => NoFuel
    | S fuel =>
      do r <- rd_undo u s;
      do s <- wr_undo u (Undo (Some L) (u_save r) (u_next r) (u_prev r)) s;
      retarget fuel (u_next r) L s
    end
  end.

(** realloc: what exceeds the old block is not initialized *)
Definition realloc (b n : nat) (s : gst) : outcome (nat * gst) :=
  match hp s b with
  | Some (BArr l) =>
    let (b', s) := malloc (BArr (firstn n l ++ repeat junk (n - length l))) s in
    Ret (b', set_hp s (upd (hp s) b None))
  | _ => UB
  end.

(** 766-820 *)
Definition G_Alloc_Array (L : loc) (n : nat) (backtrack : bool) (s : gst) : outcome (nat * gst) :=
  do e <- rd L s;
  do p <-
    match e_c e with
    | CArr old src =>
      if backtrack then
        let (b, s) := malloc (BArr (repeat junk (S n))) s in
        do s <- loop (fun i => G_Copy_Element (b, i) (src, i)) old 0 s;
        do last <- rd (src, old) s;
        do s <- match e_c last with CEnd => wr (b, n) last s | _ => G_Copy_Element (b, n) (src, old) s end;
        Ret (b, s)
      else
        do p <- realloc src (S n) s;
        let (b, s) := p in
        do s <- loop (fun i s => do d <- rd (b, i) s; retarget (nb s) (e_u d) (b, i) s) old 0 s;
        do last <- rd (b, old) s;
        do s <- wr (b, n) last s;
        Ret (b, s)
    | _ =>
      let (b, s) := malloc (BArr (repeat junk (S n))) s in
      do s <- wr (b, n) (Elt CEnd None) s;
      Ret (b, s)
    end;
  let (b, s) := p in
  do s <- wr_c L (CArr n b) s;
  Ret (b, s).

(** what is assigned: an atom or an integer, another term, a term g_array(Size, Init),
    g_array(List), ...; [SBad]: g_array with other arguments *)
Inductive array_op : Type := G_ARRAY | G_ARRAY_AUTO | G_ARRAY_EXTEND.
Inductive gsrc : Type :=
| SConst (w : gword)
| STerm (w : gword)
| SArrN (op : array_op) (n : Z) (init : gsrc)
| SArrL (op : array_op) (l : list gsrc)
| SBad.

(** the state, or an error raised in this state *)
Inductive ares : Type := AOk (s : gst) | AErr (s : gst).
Definition abind (o : outcome ares) (k : gst -> outcome ares) : outcome ares :=
  match o with Ret (AOk s) => k s | Ret (AErr s) => Ret (AErr s) | UB => UB | NoFuel => NoFuel end.
Fixpoint aloop (step : nat -> gst -> outcome ares) (k i : nat) (s : gst) : outcome ares :=
  match k with O => Ret (AOk s) | S k => abind (step i s) (aloop step k (S i)) end.

(** G_INITIAL_VALUE, 54; p->size = 0; p->val = G_INITIAL_VALUE; p->undo = NULL *)
Definition initial : content := CLink (GInt 0).
Definition init_cell (L : loc) (s : gst) : outcome gst := wr L (Elt initial None) s.

(** 693-718: the array for [n] elements and the first one to assign *)
Definition start_array (L : loc) (op : array_op) (n : nat) (backtrack : bool) (s : gst)
  : outcome (nat * nat * gst) :=
  do e <- rd L s;
  let extend := match op, e_c e with G_ARRAY_EXTEND, CArr _ _ => true | _, _ => false end in
  let size := match e_c e with CArr m _ => m | _ => 0 end in
  do s <- (if negb extend && negb backtrack
           then do s <- G_Free_Element true L s; wr_c L initial s else Ret s);
  do p <- G_Alloc_Array L n backtrack s;
  let (b, s) := p in
  Ret (b, if extend then size else 0, s).
Definition is_auto (op : array_op) : bool := match op with G_ARRAY_AUTO => true | _ => false end.

(** 545-610 and 661-746 *)
Fixpoint G_Assign_Element (x : gsrc) (L : loc) (backtrack copy : bool) (s : gst) {struct x} : outcome ares :=
  do e <- rd L s;
  let finish (s : gst) : outcome ares :=
    if backtrack then do s <- G_Trail_For_Backtrack L (e_c e) s; Ret (AOk s) else Ret (AOk s) in
  let plain (w : gword) (link : bool) : outcome ares :=
    do s <- (if backtrack then Ret s else G_Free_Element true L s);
    do s <- (if link then wr_c L (CLink w) s
             else let (b, s) := malloc (BTerm w) s in wr_c L (CCopy b) s);
    finish s in
  match x with
  | SConst w => plain w true
  | STerm w => plain w (negb copy)
  | SBad => Ret (AErr s)
  | SArrN op n init =>
    if (0 <? n)%Z then
      let n := Z.to_nat n in
      do p <- start_array L op n backtrack s;
      let '(b, i0, s) := p in
      let fill (i : nat) (s : gst) : outcome ares :=
        do s <- init_cell (b, i) s; G_Assign_Element init (b, i) false copy s in
      abind (aloop fill (n - i0) i0 s) (fun s =>
      abind (if is_auto op then fill n s else Ret (AOk s)) finish)
    else Ret (AErr s)
  | SArrL op l =>
    match l with
    | [] => Ret (AErr s)
    | _ =>
      let n := length l in
      do p <- start_array L op n backtrack s;
      let '(b, i0, s) := p in
      let fill_list := fix fill_list (l : list gsrc) (i : nat) (s : gst) {struct l} : outcome ares :=
        match l with
        | [] => Ret (AOk s)
        | y :: r =>
          if i <? i0 then fill_list r (S i) s
          else do s <- init_cell (b, i) s;
               abind (G_Assign_Element y (b, i) false copy s) (fill_list r (S i))
        end in
      abind (fill_list l 0 s) (fun s =>
      if is_auto op then
        do s <- init_cell (b, n) s;
        do s <- G_Free_Element true (b, n) s;
        do s <- wr_c (b, n) initial s;
        finish s
      else finish s)
    end
  end.

(** the name of a variable or of an element: t(I1, ..., Ik), where an index is an integer or
    again a name *)
Inductive gref : Type := GRef (a : Z) (l : gidxs)
with gidxs : Type := INil | IInt (n : Z) (r : gidxs) | IRef (g : gref) (r : gidxs).

Definition MAX_AUTO_SIZE : Z := 2 ^ 20.
(** for(new_size = 1; new_size <= index; new_size <<= 1) *)
Fixpoint power_above (fuel : nat) (n x : Z) : Z :=
  match fuel with O => x | S fuel => if (x <=? n)%Z then power_above fuel n (2 * x) else x end.

(** 877-904, the body of the loop after the evaluation of [index]; [size]: g_elem->size as
    read before *)
Definition index_element (L : loc) (size : content) (index : Z) (s : gst) : outcome (option loc * gst) :=
  match size with
  | CArr m _ =>
    if (index <? 0)%Z then Ret (None, s)
    else
      do e <- rd L s;
      match e_c e with
      | CArr _ b =>
        if (Z.of_nat m <=? index)%Z then
          do last <- rd (b, m) s;
          match e_c last with
          | CEnd => Ret (None, s)
          | _ =>
            if (MAX_AUTO_SIZE <? index)%Z then Ret (None, s)
            else
              let n := Z.to_nat (power_above 21 index 1) in
              do p <- G_Alloc_Array L n false s;
              let (b, s) := p in
              do s <- loop (fun j => G_Copy_Element (b, j) (b, n)) (n - m) m s;
              Ret (Some (b, Z.to_nat index), s)
          end
        else Ret (Some (b, Z.to_nat index), s)
      | _ => UB
      end
  | _ => Ret (None, s)
  end.

(** 1000-1017; None: a type error *)
Definition int_of (L : loc) (s : gst) : outcome (option Z) :=
  do e <- rd L s;
  match e_c e with
  | CLink (GInt n) => Ret (Some n)
  | CLink (GTerm _) => Ret None
  | CCopy b => do w <- rd_term b s; match w with GInt n => Ret (Some n) | GTerm _ => Ret None end
  | CArr _ _ => Ret None
  | CEnd | CJunk => UB
  end.

(** 829-911; None: an error is raised *)
Fixpoint Get_Target_From_Gvar (g : gref) (s : gst) : outcome (option loc * gst) :=
  match g with
  | GRef a l =>
    let (b, s) :=
      match info s a with
      | Some b => (b, s)
      | None =>
        let (b, s) := malloc (BArr [Elt initial None]) s in
        (b, Gst (hp s) (un s) (fun x => if (x =? a)%Z then Some b else info s x) (nb s) (tr s))
      end in
    do e <- rd (b, 0) s;
    match l, e_c e with
    | INil, _ | _, CArr _ _ => walk l (b, 0) s
    | _, _ => Ret (None, s)
    end
  end
with walk (l : gidxs) (L : loc) (s : gst) : outcome (option loc * gst) :=
  match l with
  | INil => Ret (Some L, s)
  | IInt n r =>
    do e <- rd L s;
    do p <- index_element L (e_c e) n s;
    match p with (Some L, s) => walk r L s | (None, s) => Ret (None, s) end
  | IRef g r =>
    do e <- rd L s;
    do p <- Get_Target_From_Gvar g s;
    match p with
    | (None, s) => Ret (None, s)
    | (Some L', s) =>
      do i <- int_of L' s;
      match i with
      | None => Ret (None, s)
      | Some n =>
        do p <- index_element L (e_c e) n s;
        match p with (Some L, s) => walk r L s | (None, s) => Ret (None, s) end
      end
    end
  end.

(** 521-536 *)
Definition G_Assign (g : gref) (x : gsrc) (backtrack copy : bool) (s : gst) : outcome ares :=
  do p <- Get_Target_From_Gvar g s;
  match p with
  | (Some L, s) => G_Assign_Element x L backtrack copy s
  | (None, s) => Ret (AErr s)
  end.

(** 1241-1282 G_Read_Element, as a value *)
Inductive gval : Type := GVal (w : gword) | GList (l : list gval).
Fixpoint read_elements (rde : loc -> outcome gval) (b k i : nat) : outcome (list gval) :=
  match k with
  | O => Ret []
  | S k => do v <- rde (b, i); do l <- read_elements rde b k (S i); Ret (v :: l)
  end.
Fixpoint read_element (fuel : nat) (s : gst) (L : loc) : outcome gval :=
  match fuel with
  | O => NoFuel
  | S fuel =>
    do e <- rd L s;
    match e_c e with
    | CLink w => Ret (GVal w)
    | CCopy b => do w <- rd_term b s; Ret (GVal w)
    | CArr n b => do l <- read_elements (read_element fuel s) b n 0; Ret (GList l)
    | CEnd | CJunk => UB
    end
  end.
(** 1215-1232; None: an error is raised *)
Definition G_Read (g : gref) (s : gst) : outcome (option gval * gst) :=
  do p <- Get_Target_From_Gvar g s;
  match p with
  | (Some L, s) => do v <- read_element (S (nb s)) s L; Ret (Some v, s)
  | (None, s) => Ret (None, s)
  end.
(** 1291-1304; None: an error or a failure *)
Definition G_Array_Size (g : gref) (s : gst) : outcome (option nat * gst) :=
  do p <- Get_Target_From_Gvar g s;
  match p with
  | (Some L, s) => do e <- rd L s; Ret (match e_c e with CArr n _ => Some n | _ => None end, s)
  | (None, s) => Ret (None, s)
  end.

(** what a program does with the global variables *)
Inductive gop : Type :=
| Oassign (g : gref) (x : gsrc)          (* g_assign/2 *)
| Oassignb (g : gref) (x : gsrc)         (* g_assignb/2 *)
| Olink (g : gref) (x : gsrc)            (* g_link/2 *)
| Oread (g : gref)
| Oback (n : nat).                       (* back to a choice point, when the trail had n records *)
Definition exec (o : gop) (s : gst) : outcome gst :=
  match o with
  | Oassign g x => do r <- G_Assign g x false true s; match r with AOk s | AErr s => Ret s end
  | Oassignb g x => do r <- G_Assign g x true true s; match r with AOk s | AErr s => Ret s end
  | Olink g x => do r <- G_Assign g x true false s; match r with AOk s | AErr s => Ret s end
  | Oread g => do r <- G_Read g s; Ret (snd r)
  | Oback n => Untrail n s
  end.
Fixpoint execs (l : list gop) (s : gst) : outcome gst :=
  match l with [] => Ret s | o :: l => do s <- exec o s; execs l s end.
Definition start : gst := Gst (fun _ => None) (fun _ => None) (fun _ => None) 1 [].
