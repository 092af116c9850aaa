(** Constraint propagation: /repo/src/EngineFD/fd_inst.c and the code generated by Fd2C for the constraints of
    /repo/src/BipsFD/fd_math_fd.fd.  Variables are numbers; the words of a variable that this part uses are
    kept (fd_inst.h:56-73): range, date, mask and link of the queue, chains.  Left out: the trail (C31), the
    counter Nb_Cstr, wait_switch and stop. *)
Require Import ZArith List Bool.
Require Import Verif.Heap_Model Verif.FdRange_Model Verif.FdTell_Model.
Import ListNotations.
Open Scope Z_scope.

(** ** Constraints as Fd2C compiles them *)
(** Terms; the numbers are places of the A frame. [Ite0 c a b] is ite(c == 0, a, b). *)
Inductive tm := Cst (z : Z) | Par (i : nat) | Min (i : nat) | Max (i : nat) | Val (i : nat)
  | Add (a b : tm) | Sub (a b : tm) | Mul (a b : tm) | DivUp (a b : tm) | DivDn (a b : tm) | Ite0 (c a b : tm).
(** what the variable is restricted to: a..b, {a}, ~{a} (simplified by Fd2C/compile.pl:393-416), dom(Y) *)
Inductive rg := RInterval (a b : tm) | RValue (a : tm) | RNot (a : tm) | RDom (i : nat).
(** "start X in r"; [balways]: optimization #2 is off *)
Record block := Block { btarget : nat; brange : rg; balways : bool }.
(** which of min, max, dom, val of a variable are used *)
Record use := Use { umin : bool; umax : bool; udom : bool; uval : bool }.
Definition no_use := Use false false false false.
Definition join (x y : use) := Use (umin x || umin y) (umax x || umax y) (udom x || udom y) (uval x || uval y).
Fixpoint tm_use (i : nat) (t : tm) : use :=
  match t with
  | Cst _ | Par _ => no_use
  | Min j => if Nat.eqb i j then Use true false false false else no_use
  | Max j => if Nat.eqb i j then Use false true false false else no_use
  | Val j => if Nat.eqb i j then Use false false false true else no_use
  | Add a b | Sub a b | Mul a b | DivUp a b | DivDn a b => join (tm_use i a) (tm_use i b)
  | Ite0 c a b => join (tm_use i c) (join (tm_use i a) (tm_use i b))
  end.
Definition rg_use (i : nat) (r : rg) : use :=
  match r with
  | RInterval a b => join (tm_use i a) (tm_use i b)
  | RValue a | RNot a => tm_use i a
  | RDom j => if Nat.eqb i j then Use false false true false else no_use
  end.
(** fd_inst.h:100-104 *)
Definition CHAIN_NB_MIN := 0%nat.
Definition CHAIN_NB_MAX := 1%nat.
Definition CHAIN_NB_MIN_MAX := 2%nat.
Definition CHAIN_NB_DOM := 3%nat.
Definition CHAIN_NB_VAL := 4%nat.
(** e_compute_dep_chain, Fd2C/compile.pl:366-382 *)
Definition dep_chain (u : use) : option nat :=
  if uval u then Some CHAIN_NB_VAL
  else if udom u then Some CHAIN_NB_DOM
  else if umin u then if umax u then Some CHAIN_NB_MIN_MAX else Some CHAIN_NB_MIN
  else if umax u then Some CHAIN_NB_MAX else None.
(** the dependencies of a block with a frame of [n] places (e_install_trig, Fd2C/compile.pl:243-258) *)
Definition block_deps (n : nat) (b : block) : list (nat * nat) :=
  flat_map (fun i => match dep_chain (rg_use i (brange b)) with Some c => [(i, c)] | None => [] end) (seq 0 n).

(** ** The state *)
(** the A frame: variables and integers *)
Inductive aval := AV (v : nat) | AI (z : Z).
(** a constraint frame (fd_inst.h:140-150): the A frame, where the date is found (a variable, or
    optim2_date_always), the function *)
Record cframe := CFrame { af : list aval; optim : option nat; cfct : block }.
Record vst := Vst { fd : fdv; date : Z; qmask : Z; qnext : nat; cmask : Z; chs : nat -> list nat }.
(** [dnext]: the link of dummy_fd_var; [tp]: TP, None for dummy_fd_var *)
Record st := St { vars : nat -> vst; cfs : list cframe; tp : option nat; dnext : nat; DATE : Z }.
Definition DATE_NEVER := 0.
Definition DATE_ALWAYS := 1.
(** fd_inst.h:79 *)
Definition MASK_TO_KEEP_IN_QUEUE := 256.
Definition W64 := 2 ^ 64.
Definition setv (s : st) (v : nat) (x : vst) : st :=
  St (fun u => if Nat.eqb u v then x else vars s u) (cfs s) (tp s) (dnext s) (DATE s).
Definition set_qmask (s : st) (v : nat) (m : Z) : st :=
  let x := vars s v in setv s v (Vst (fd x) (date x) m (qnext x) (cmask x) (chs x)).
Definition set_qnext (s : st) (v : nat) (n : nat) : st :=
  let x := vars s v in setv s v (Vst (fd x) (date x) (qmask x) n (cmask x) (chs x)).
Definition set_fd (s : st) (v : nat) (y : fdv) (d : Z) : st :=
  let x := vars s v in setv s v (Vst y d (qmask x) (qnext x) (cmask x) (chs x)).
Definition set_tp (s : st) (t : option nat) : st := St (vars s) (cfs s) t (dnext s) (DATE s).
Definition set_dnext (s : st) (v : nat) : st := St (vars s) (cfs s) (tp s) v (DATE s).
Definition is_ground (x : fdv) : bool := match tagv x with Some _ => true | None => false end.

(** ** Running a constraint *)
Inductive tellk := TInterval (lo hi : Z) | TValue (n : Z) | TNot (n : Z) | TRng (r : range).
Section Run.
Variable sz : nat.
Variable junk : list Z.
Variable a : around.
(** the terms: int arithmetic (fd_to_c.h:95-96 for the divisions) *)
Definition the_var (s : nat -> fdv) (f : list aval) (i : nat) : outcome fdv := match nth_error f i with Some (AV v) => Ret (s v) | _ => UB end.
Fixpoint eval (s : nat -> fdv) (f : list aval) (t : tm) : outcome Z :=
  match t with
  | Cst z => Ret z
  | Par i => match nth_error f i with Some (AI z) => Ret z | _ => UB end
  | Min i | Val i => do x <- the_var s f i; Ret (rmin (frange x))
  | Max i => do x <- the_var s f i; Ret (rmax (frange x))
  | Add t u => do x <- eval s f t; do y <- eval s f u; ck (x + y)
  | Sub t u => do x <- eval s f t; do y <- eval s f u; ck (x - y)
  | Mul t u => do x <- eval s f t; do y <- eval s f u; ck (x * y)
  | DivUp t u => do x <- eval s f t; do y <- eval s f u; do z <- ck (x + y); do z <- ck (z - 1); if y =? 0 then UB else ck (Z.quot z y)
  | DivDn t u => do x <- eval s f t; do y <- eval s f u; if y =? 0 then UB else ck (Z.quot x y)
  | Ite0 c t u => do x <- eval s f c; if x =? 0 then eval s f t else eval s f u
  end.
(** fd_load_val (fd_to_c.h:546-551) leaves the function if the variable is not bound; the loads come first *)
Fixpoint vals_ground (s : nat -> fdv) (f : list aval) (t : tm) : outcome bool :=
  match t with
  | Val i => do x <- the_var s f i; Ret (is_ground x)
  | Add t u | Sub t u | Mul t u | DivUp t u | DivDn t u => do x <- vals_ground s f t; do y <- vals_ground s f u; Ret (x && y)
  | Ite0 c t u => do x <- vals_ground s f c; do y <- vals_ground s f t; do z <- vals_ground s f u; Ret (x && y && z)
  | _ => Ret true
  end.
Definition one (s : nat -> fdv) (f : list aval) (k : Z -> tellk) (t : tm) : outcome (option tellk) :=
  do g <- vals_ground s f t; if g then do x <- eval s f t; Ret (Some (k x)) else Ret None.
(** None: the function is left without a tell *)
Definition beval (s : nat -> fdv) (f : list aval) (r : rg) : outcome (option tellk) :=
  match r with
  | RInterval t u =>
    do g <- vals_ground s f t; do h <- vals_ground s f u;
    if g && h then do x <- eval s f t; do y <- eval s f u; Ret (Some (TInterval x y)) else Ret None
  | RValue t => one s f TValue t
  | RNot t => one s f TNot t
  | RDom i => do x <- the_var s f i; Ret (Some (TRng (frange x)))
  end.
Definition tellx (x : fdv) (k : tellk) : outcome told :=
  match k with
  | TInterval lo hi => Tell_Interval sz junk a x lo hi
  | TValue n => Tell_Value sz x n
  | TNot n => Tell_Not_Value sz junk x n
  | TRng r => Tell_Range sz junk a x r
  end.
(** fd_inst.c:1317-1331 *)
Definition All_Propagations (s : st) (v : nat) (propag : Z) : st :=
  let x := vars s v in
  let propag := Z.land propag (cmask x) in
  if propag =? 0 then s
  else if qmask x =? 0 then
    let s := set_qmask s v propag in
    let s := match tp s with None => set_dnext s v | Some t => set_qnext s t v end in
    set_tp s (Some v)
  else set_qmask s v (Z.lor (qmask x) propag).
(** a Pl_Fd_Tell_... function on the variable [v]: the date is set when it becomes an integer (fd_inst.c:286) *)
Definition tell (s : st) (v : nat) (k : tellk) : outcome (bool * st) :=
  let x := vars s v in
  do t <- tellx (fd x) k;
  let d := if negb (is_ground (fd x)) && is_ground (var t) then DATE s else date x in
  Ret (success t, All_Propagations (set_fd s v (var t) d) v (propag t)).
Definition store (s : st) (v : nat) : fdv := fd (vars s v).
(** the function of a block, called with its A frame *)
Definition run_block (s : st) (f : list aval) (b : block) : outcome (bool * st) :=
  match nth_error f (btarget b) with
  | Some (AV v) => do k <- beval (store s) f (brange b); match k with None => Ret (true, s) | Some k => tell s v k end
  | _ => UB
  end.

(** ** Propagation *)
(** fd_inst.c:929-955 *)
Definition Before_Add_Cstr (s : st) : st :=
  let d := (DATE s + 1) mod W64 in
  St (vars s) (cfs s) None (dnext s) (if d =? DATE_NEVER then d + 1 else d).
(** fd_inst.c:995-1017 *)
Fixpoint clear_loop (fuel : nat) (s : st) (bp t : nat) : outcome st :=
  match fuel with
  | O => NoFuel
  | S fuel =>
    let s := set_qmask s bp 0 in
    if Nat.eqb bp t then Ret (set_tp s None) else clear_loop fuel s (qnext (vars s bp)) t
  end.
Definition Clear_Queue (fuel : nat) (s : st) : outcome st :=
  match tp s with None => Ret s | Some t => clear_loop fuel s (dnext s) t end.
(** one constraint of a chain (fd_inst.c:1384-1401) *)
Definition skipped (s : st) (c : cframe) : bool :=
  let d := match optim c with None => DATE_ALWAYS | Some v => date (vars s v) end in
  negb (d =? DATE_ALWAYS) && negb (d =? DATE s).
Definition run_cframe (s : st) (id : nat) : outcome (bool * st) :=
  match nth_error (cfs s) id with
  | None => UB
  | Some c => if skipped s c then Ret (true, s) else run_block s (af c) (cfct c)
  end.
Fixpoint run_list (s : st) (l : list nat) : outcome (bool * st) :=
  match l with
  | [] => Ret (true, s)
  | id :: l => do p <- run_cframe s id; if fst p then run_list (snd p) l else Ret p
  end.
(** the chains whose bit is set; a chain that is followed must not be empty (fd_inst.c:1374-1416) *)
Fixpoint run_chains (s : st) (v : nat) (propag : Z) (l : list nat) : outcome (bool * st) :=
  match l with
  | [] => Ret (true, s)
  | i :: l =>
    if Z.testbit propag (Z.of_nat i) then
      match chs (vars s v) i with
      | [] => UB
      | recs => do p <- run_list s recs; if fst p then run_chains (snd p) v propag l else Ret p
      end
    else run_chains s v propag l
  end.
Definition all_chains := [CHAIN_NB_MIN; CHAIN_NB_MAX; CHAIN_NB_MIN_MAX; CHAIN_NB_DOM; CHAIN_NB_VAL].
(** fd_inst.c:1363-1432 *)
Fixpoint propag_loop (fuel : nat) (s : st) (bp : nat) : outcome (bool * st) :=
  match fuel with
  | O => NoFuel
  | S fuel =>
    let propag := qmask (vars s bp) in
    let s := set_qmask s bp MASK_TO_KEEP_IN_QUEUE in
    if negb (Z.shiftr propag 5 =? 0) then UB
    else
      do p <- run_chains s bp propag all_chains;
      let s := snd p in
      if fst p then
        let s := set_qmask s bp (Z.land (qmask (vars s bp)) (MASK_TO_KEEP_IN_QUEUE - 1)) in
        if qmask (vars s bp) =? 0 then
          match tp s with
          | Some t => if Nat.eqb bp t then Ret (true, set_tp s None) else propag_loop fuel s (qnext (vars s bp))
          | None => propag_loop fuel s (qnext (vars s bp))
          end
        else propag_loop fuel s bp
      else do s <- Clear_Queue fuel (set_dnext s bp); Ret (false, s)
  end.
(** fd_inst.c:1340-1437 *)
Definition After_Add_Cstr (fuel : nat) (s : st) (result : bool) : outcome (bool * st) :=
  if negb result then do s <- Clear_Queue fuel s; Ret (false, s)
  else match tp s with None => Ret (true, s) | Some _ => propag_loop fuel s (dnext s) end.

(** ** Posting *)
(** fd_inst.c:790-810 *)
Definition Add_Dependency (s : st) (f : list aval) (i c id : nat) : outcome st :=
  match nth_error f i with
  | Some (AV v) =>
    let x := vars s v in
    if is_ground (fd x) then Ret s
    else Ret (setv s v (Vst (fd x) (date x) (qmask x) (qnext x) (Z.lor (cmask x) (Z.shiftl 1 (Z.of_nat c)))
                           (fun j => if Nat.eqb j c then id :: chs x j else chs x j)))
  | _ => UB
  end.
Fixpoint add_deps (s : st) (f : list aval) (id : nat) (l : list (nat * nat)) : outcome st :=
  match l with [] => Ret s | (i, c) :: l => do s <- Add_Dependency s f i c id; add_deps s f id l end.
(** The installation of a block: the constraint frame (Pl_Fd_Create_C_Frame, fd_inst.c:765-782), its
    dependencies, the first run (e_fct_install_triggers, Fd2C/compile.pl:221-240). *)
Definition install (s : st) (f : list aval) (b : block) : outcome (bool * st) :=
  let deps := block_deps (length f) b in
  match deps, nth_error f (btarget b) with
  | [], _ => run_block s f b
  | _, Some (AV v) =>
    let id := length (cfs s) in
    let s := St (vars s) (cfs s ++ [CFrame f (if balways b then None else Some v) b]) (tp s) (dnext s) (DATE s) in
    do s <- add_deps s f id deps; run_block s f b
  | _, _ => UB
  end.
Fixpoint install_all (s : st) (f : list aval) (l : list block) : outcome (bool * st) :=
  match l with
  | [] => Ret (true, s)
  | b :: l => do p <- install s f b; if fst p then install_all (snd p) f l else Ret p
  end.
(** a user constraint called with a frame (emit_user_cstr, Fd2C/compile.pl:54-76) *)
Definition post (fuel : nat) (s : st) (f : list aval) (l : list block) : outcome (bool * st) :=
  do p <- install_all (Before_Add_Cstr s) f l; After_Add_Cstr fuel (snd p) (fst p).
(** Pl_Fd_In_Interval, Pl_Fd_In_Range, Pl_Fd_Unify_With_Integer0, Pl_Fd_Remove_Value (fd_inst.c:1461-1538) *)
Definition tell_post (fuel : nat) (s : st) (v : nat) (k : tellk) : outcome (bool * st) :=
  do p <- tell (Before_Add_Cstr s) v k; After_Add_Cstr fuel (snd p) (fst p).
End Run.

(** ** The constraints of fd_math_fd.fd that have no wait_switch *)
Definition start (x : nat) (r : rg) : block := Block x r false.
Definition max_integer := Cst IMAX.
(** fd_math_fd.fd:60-65: X = 0, Y = 1 *)
Definition x_eq_y := [start 0 (RInterval (Min 1) (Max 1)); start 1 (RInterval (Min 0) (Max 0))].
(** fd_math_fd.fd:70-75: X = 0, C = 1, Y = 2 *)
Definition x_plus_c_eq_y := [start 0 (RInterval (Sub (Min 2) (Par 1)) (Sub (Max 2) (Par 1))); start 2 (RInterval (Add (Min 0) (Par 1)) (Add (Max 0) (Par 1)))].
(** fd_math_fd.fd:83-88 *)
Definition x_eq_y_F := [start 0 (RDom 1); start 1 (RDom 0)].
(** fd_math_fd.fd:114-118 *)
Definition x_neq_c := [start 0 (RNot (Par 1))].
(** fd_math_fd.fd:123-128 *)
Definition x_neq_y := [start 0 (RNot (Val 1)); start 1 (RNot (Val 0))].
(** fd_math_fd.fd:133-138 *)
Definition x_plus_c_neq_y := [start 0 (RNot (Sub (Val 2) (Par 1))); start 2 (RNot (Add (Val 0) (Par 1)))].
(** fd_math_fd.fd:154-159 *)
Definition x_lt_y := [start 0 (RInterval (Cst 0) (Sub (Max 1) (Cst 1))); start 1 (RInterval (Add (Min 0) (Cst 1)) max_integer)].
(** fd_math_fd.fd:175-179 *)
Definition x_lte_c := [start 0 (RInterval (Cst 0) (Par 1))].
(** fd_math_fd.fd:184-189 *)
Definition x_lte_y := [start 0 (RInterval (Cst 0) (Max 1)); start 1 (RInterval (Min 0) max_integer)].
(** fd_math_fd.fd:194-199 *)
Definition x_plus_c_lte_y := [start 0 (RInterval (Cst 0) (Sub (Max 2) (Par 1))); start 2 (RInterval (Add (Min 0) (Par 1)) max_integer)].
(** fd_math_fd.fd:215-219 *)
Definition x_gte_c := [start 0 (RInterval (Par 1) max_integer)].
(** fd_math_fd.fd:224-229 *)
Definition x_plus_c_gte_y := [start 0 (RInterval (Sub (Min 2) (Par 1)) max_integer); start 2 (RInterval (Cst 0) (Add (Max 0) (Par 1)))].
(** fd_math_fd.fd:246-251: A = 0, X = 1, Y = 2 *)
Definition ax_eq_y := [start 1 (RInterval (DivUp (Min 2) (Par 0)) (DivDn (Max 2) (Par 0))); start 2 (RInterval (Mul (Par 0) (Min 1)) (Mul (Par 0) (Max 1)))].
(** fd_math_fd.fd:256-262: X = 0, Y = 1, Z = 2 *)
Definition x_plus_y_eq_z := [start 0 (RInterval (Sub (Min 2) (Max 1)) (Sub (Max 2) (Min 1))); start 1 (RInterval (Sub (Min 2) (Max 0)) (Sub (Max 2) (Min 0))); start 2 (RInterval (Add (Min 0) (Min 1)) (Add (Max 0) (Max 1)))].
(** fd_math_fd.fd:267-273: A = 0, X = 1, Y = 2, Z = 3 *)
Definition ax_plus_y_eq_z :=
  let A := Par 0 in
  [start 1 (RInterval (DivUp (Sub (Min 3) (Max 2)) A) (DivDn (Sub (Max 3) (Min 2)) A));
   start 2 (RInterval (Sub (Min 3) (Mul A (Max 1))) (Sub (Max 3) (Mul A (Min 1))));
   start 3 (RInterval (Add (Mul A (Min 1)) (Min 2)) (Add (Mul A (Max 1)) (Max 2)))].
(** fd_math_fd.fd:278-284: A = 0, X = 1, B = 2, Y = 3, Z = 4 *)
Definition ax_plus_by_eq_z :=
  let A := Par 0 in let B := Par 2 in
  [start 1 (RInterval (DivUp (Sub (Min 4) (Mul B (Max 3))) A) (DivDn (Sub (Max 4) (Mul B (Min 3))) A));
   start 3 (RInterval (DivUp (Sub (Min 4) (Mul A (Max 1))) B) (DivDn (Sub (Max 4) (Mul A (Min 1))) B));
   start 4 (RInterval (Add (Mul A (Min 1)) (Mul B (Min 3))) (Add (Mul A (Max 1)) (Mul B (Max 3))))].
(** fd_math_fd.fd:289-296: X, Y, Z, T = 0, 1, 2, 3 *)
Definition x_plus_y_plus_z_eq_t :=
  [start 0 (RInterval (Sub (Sub (Min 3) (Max 1)) (Max 2)) (Sub (Sub (Max 3) (Min 1)) (Min 2)));
   start 1 (RInterval (Sub (Sub (Min 3) (Max 0)) (Max 2)) (Sub (Sub (Max 3) (Min 0)) (Min 2)));
   start 2 (RInterval (Sub (Sub (Min 3) (Max 0)) (Max 1)) (Sub (Sub (Max 3) (Min 0)) (Min 1)));
   start 3 (RInterval (Add (Add (Min 0) (Min 1)) (Min 2)) (Add (Add (Max 0) (Max 1)) (Max 2)))].
(** fd_math_fd.fd:301-309: A = 0, X, Y, Z, T = 1, 2, 3, 4 *)
Definition ax_plus_y_plus_z_eq_t :=
  let A := Par 0 in
  [start 1 (RInterval (DivUp (Sub (Sub (Min 4) (Max 2)) (Max 3)) A) (DivDn (Sub (Sub (Max 4) (Min 2)) (Min 3)) A));
   start 2 (RInterval (Sub (Sub (Min 4) (Mul A (Max 1))) (Max 3)) (Sub (Sub (Max 4) (Mul A (Min 1))) (Min 3)));
   start 3 (RInterval (Sub (Sub (Min 4) (Mul A (Max 1))) (Max 2)) (Sub (Sub (Max 4) (Mul A (Min 1))) (Min 2)));
   start 4 (RInterval (Add (Add (Mul A (Min 1)) (Min 2)) (Min 3)) (Add (Add (Mul A (Max 1)) (Max 2)) (Max 3)))].
(** fd_math_fd.fd:314-323: A = 0, X = 1, B = 2, Y = 3, Z = 4, T = 5 *)
Definition ax_plus_by_plus_z_eq_t :=
  let A := Par 0 in let B := Par 2 in
  [start 1 (RInterval (DivUp (Sub (Sub (Min 5) (Mul B (Max 3))) (Max 4)) A) (DivDn (Sub (Sub (Max 5) (Mul B (Min 3))) (Min 4)) A));
   start 3 (RInterval (DivUp (Sub (Sub (Min 5) (Mul A (Max 1))) (Max 4)) B) (DivDn (Sub (Sub (Max 5) (Mul A (Min 1))) (Min 4)) B));
   start 4 (RInterval (Sub (Sub (Min 5) (Mul A (Max 1))) (Mul B (Max 3))) (Sub (Sub (Max 5) (Mul A (Min 1))) (Mul B (Min 3))));
   start 5 (RInterval (Add (Add (Mul A (Min 1)) (Mul B (Min 3))) (Min 4)) (Add (Add (Mul A (Max 1)) (Mul B (Max 3))) (Max 4)))].
(** fd_math_fd.fd:462-470: X, Y, Z = 0, 1, 2 *)
Definition xy_eq_z :=
  [start 0 (RInterval (Ite0 (Max 1) (Cst 0) (DivUp (Min 2) (Max 1))) (Ite0 (Min 1) max_integer (DivDn (Max 2) (Min 1))));
   start 1 (RInterval (Ite0 (Max 0) (Cst 0) (DivUp (Min 2) (Max 0))) (Ite0 (Min 0) max_integer (DivDn (Max 2) (Min 0))));
   start 2 (RInterval (Mul (Min 0) (Min 1)) (Mul (Max 0) (Max 1)))].
(** fd_math_fd.fd:421-426: N = 0, Y = 1 *)
Definition zero_power_n_eq_y :=
  [start 1 (RInterval (Ite0 (Max 0) (Cst 1) (Cst 0)) (Ite0 (Min 0) (Cst 1) (Cst 0)));
   start 0 (RInterval (Ite0 (Max 1) (Cst 1) (Cst 0)) (Ite0 (Min 1) max_integer (Cst 0)))].
(** fd_math_fd.fd:976-985: X = 0, A = 1, R = 2, Z = 3 *)
Definition quot_rem_x_a_r_eq_z :=
  let A := Par 1 in
  [start 2 (RInterval (Cst 0) (Sub A (Cst 1)));
   start 3 (RInterval (DivUp (Sub (Min 0) (Max 2)) A) (DivDn (Sub (Max 0) (Min 2)) A));
   start 2 (RInterval (Sub (Min 0) (Mul (Max 3) A)) (Sub (Max 0) (Mul (Min 3) A)));
   start 0 (RInterval (Add (Mul (Min 3) A) (Min 2)) (Add (Mul (Max 3) A) (Max 2)));
   start 0 (RInterval (Cst 0) (Sub (Mul (Add (Max 3) (Cst 1)) A) (Cst 1)))].
