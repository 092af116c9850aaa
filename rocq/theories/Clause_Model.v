(** The compilation of a clause to the instructions of the WAM.
    /repo/src/Pl2Wam/internal.pl:74-290 (chunks, permanent and temporary variables),
    code_gen.pl:39-458, 804-823, 863-870 (code), pl2wam.pl:137-150.

    The clause is what syn_sugar.pl leaves: a head and goals, which are calls of predicates or
    inline predicates of the last clause of gen_inline_pred/5 (a C function with its
    arguments in registers: var/1, functor/3, ==/2, g_read/2 ...).  Not modelled: the goals fail/0, =/2,
    the arithmetic, cut and call_c goals, the modules of the predicates.
    Variables, atoms, functors, predicates are numbers.  The result is the code before the
    allocation of the registers; [T n] is the register of the variable number n, or a new one. *)
Require Import List Bool Arith.
Require Import Verif.RegAlloc_Model.
Import ListNotations.

Inductive tm : Type := Tv (n : nat) | Tc (c : const) | Tf (f : nat) (l : list tm).
Definition dot : nat := 0.                  (* '.' *)
Definition mt : nat := 1.                   (* '$mt' *)
(** [g_inl]: inline_predicate(F, N) *)
Record goal : Type := Goal { g_inl : bool; g_pred : nat; g_args : list tm }.
Record clause : Type := Clause { c_head : list tm; c_body : list goal }.
(** the flags reorder, opt_last_subterm, native_code *)
Record flags : Type := Flags { reorder : bool; opt_last : bool; native : bool }.

(** * internal.pl: classification of the variables *)
(** x(_), x(void), y(_) *)
Inductive kind : Type := KX | KVoid | KY (y : nat).
(** the variables in the order of format_arg_lst, internal.pl:146-184 *)
Fixpoint vars (t : tm) : list nat :=
  match t with Tv n => [n] | Tc _ => [] | Tf _ l => flat_map vars l end.
Definition lvars (l : list tm) : list nat := flat_map vars l.
(** format_body1, format_pred, internal.pl:94-143: the goals with their chunks; [no]: NoPred *)
Fixpoint chunks (start : bool) (no : nat) (l : list goal) : list (nat * goal) * nat :=
  match l with
  | [] => ([], no)
  | g :: l =>
    let no := if start then no + 1 else no in
    let (l, nb) := chunks (negb (g_inl g)) no l in
    ((no, g) :: l, nb)
  end.
(** v(Var, NoPred1stOcc, Singleton, V), internal.pl:234-239; [d_y]: VarName is bound to y(_) *)
Record dv : Type := Dv { d_var : nat; d_first : nat; d_single : bool; d_y : bool }.
(** add_var_to_dico, internal.pl:241-258 *)
Fixpoint add_var_to_dico (d : list dv) (n no : nat) : list dv :=
  match d with
  | [] => [Dv n no true false]
  | x :: d =>
    if d_var x =? n then Dv n (d_first x) false (d_y x || (negb (d_first x =? no) && (1 <? no))) :: d
    else x :: add_var_to_dico d n no
  end.
Definition add_vars (no : nat) (l : list nat) (d : list dv) : list dv := fold_left (fun d n => add_var_to_dico d n no) l d.
(** classif_vars, internal.pl:263-276 *)
Fixpoint classif_vars (d : list dv) (y : nat) : list (nat * kind) * nat :=
  match d with
  | [] => ([], y)
  | x :: d =>
    let k := if d_y x then KY y else if d_single x then KVoid else KX in
    let (l, nb) := classif_vars d (if d_y x then y + 1 else y) in
    ((d_var x, k) :: l, nb)
  end.
Fixpoint kind_of (l : list (nat * kind)) (n : nat) : kind :=
  match l with [] => KVoid | (m, k) :: l => if m =? n then k else kind_of l n end.
(** internal_format, internal.pl:74-82 *)
Definition dico (head : list tm) (body : list (nat * goal)) : list dv :=
  fold_left (fun d p => add_vars (fst p) (lvars (g_args (snd p))) d) body (add_vars 0 (lvars head) []).

(** * code_gen.pl *)
(** the Info of a variable, when it is bound *)
Inductive vinfo : Type := in_heap | not_in_cur_env | unsafe.
(** [nxt]: the next new register *)
Record st : Type := St { nxt : nat; inf : nat -> option vinfo }.
Definition set_inf (s : st) (n : nat) (i : vinfo) : st := St (nxt s) (fun m => if m =? n then Some i else inf s m).
Definition new_reg (s : st) : nat * st := (nxt s, St (S (nxt s)) (inf s)).

Section Gen.
Variable fl : flags.
Variable kd : nat -> kind.
(** last_pred (treat_body is false where this code is used: the head) *)
Variable last_pred : bool.

(** gen_unif_arg for a variable, code_gen.pl:251-265 *)
Definition unif_var (n : nat) (x : reg) (s : st) : list inst * st :=
  match inf s n with
  | None =>
    match kd n with
    | KVoid => ([], s)
    | KX => ([get_variable_x (T n) x], set_inf s n not_in_cur_env)
    | KY y => ([get_arg (i_get_variable y) x], set_inf s n not_in_cur_env)
    end
  | Some _ => (match kd n with KY y => [get_arg (i_get_value y) x] | _ => [get_value_x (T n) x] end, s)
  end.
(** gen_load_arg for a variable, code_gen.pl:301-330; a variable x(_) is never unsafe *)
Definition load_var (n : nat) (x : reg) (s : st) : list inst * st :=
  match inf s n with
  | None =>
    match kd n with
    | KVoid => ([put_void x], s)
    | KX => ([put_variable_x (T n) x], set_inf s n in_heap)
    | KY y => (put_arg (i_put_variable y) x :: (if last_pred then [put_arg (i_put_unsafe_value y) x] else []), set_inf s n unsafe)
    end
  | Some i =>
    (match kd n with
     | KY y => [put_arg (match i with unsafe => if last_pred then i_put_unsafe_value y else i_put_value y | _ => i_put_value y end) x]
     | _ => [put_value_x (T n) x]
     end, s)
  end.
(** gen_subterm_arg for a variable, code_gen.pl:422-430 *)
Definition sub_var (n : nat) (k : kind) (s : st) : list inst * st :=
  match inf s n with
  | None => (match k with KY y => [other (i_unify_variable y)] | _ => [unify_variable_x (T n)] end, set_inf s n in_heap)
  | Some in_heap => (match k with KY y => [other (i_unify_value_y y)] | _ => [unify_value_x i_unify_value (T n)] end, s)
  | Some _ => (match k with KY y => [other (i_unify_local_value_y y)] | _ => [unify_value_x i_unify_local_value (T n)] end, s)
  end.

(** * Subterms *)
(** the arguments of a structure after flat_stc_arg_lst: simple arguments, new registers (with the
    argument they stand for), a structure in the last place *)
Inductive farg : Type := FV (n : nat) | FC (c : const) | FX (x : nat) (t : tm).
Inductive fargs : Type := Fnil | Fcons (a : farg) (l : fargs) | Flast (f n : nat) (l : fargs).
(** simple_stc_arg, code_gen.pl:384-390 *)
Definition simple_const (c : const) : bool := match c with Cflt _ => false | _ => true end.
Definition is_mt (f : nat) (l : list tm) : bool := (f =? mt) && (length l =? 2).
(** flat_stc_arg_lst, code_gen.pl:362-380: of the arguments of t; [head]: HB = head *)
Definition new_aux (head : bool) (s : st) : nat * st :=
  let (x, s) := new_reg s in (x, if head then s else set_inf s x in_heap).
Fixpoint flat (head : bool) (t : tm) (s : st) {struct t} : fargs * list (nat * tm) * st :=
  match t with
  | Tf _ l =>
    (fix go (l : list tm) (s : st) {struct l} : fargs * list (nat * tm) * st :=
      match l with
      | [] => (Fnil, [], s)
      | a :: l =>
        let aux :=
          let (x, s) := new_aux head s in
          let '(fa, ax, s) := go l s in (Fcons (FX x a) fa, (x, a) :: ax, s) in
        match a with
        | Tv n => let '(fa, ax, s) := go l s in (Fcons (FV n) fa, ax, s)
        | Tc b => if simple_const b then let '(fa, ax, s) := go l s in (Fcons (FC b) fa, ax, s) else aux
        | Tf f l1 =>
          match l with
          | [] =>
            if opt_last fl && negb (is_mt f l1) then let '(fa, ax, s) := flat head a s in (Flast f (length l1) fa, ax, s)
            else aux
          | _ => aux
          end
        end
      end) l s
  | _ => (Fnil, [], s)
  end.
Definition is_void (n : nat) : bool := match kd n with KVoid => true | _ => false end.
(** gen_subterm_arg_lst, gen_compte_void, gen_subterm_arg, code_gen.pl:397-445;
    [v]: the void variables counted so far *)
Definition voids (v : list nat) : list inst := match v with [] => [] | _ => [other (i_unify_void (length v))] end.
Fixpoint gen_sub (v : list nat) (l : fargs) (s : st) : list inst * st :=
  match l with
  | Fnil => (voids v, s)
  | Fcons (FV n) l =>
    if is_void n then gen_sub (v ++ [n]) l s
    else let (c1, s) := sub_var n (kd n) s in let (c2, s) := gen_sub [] l s in (voids v ++ c1 ++ c2, s)
  | Fcons (FC b) l => let (c2, s) := gen_sub [] l s in (voids v ++ other (i_unify_const b) :: c2, s)
  | Fcons (FX x _) l => let (c1, s) := sub_var x KX s in let (c2, s) := gen_sub [] l s in (voids v ++ c1 ++ c2, s)
  | Flast f n l => let (c2, s) := gen_sub [] l s in (voids v ++ other (i_unify_structure f n) :: c2, s)
  end.

(** gen_unif_arg_lst, gen_load_arg_lst, code_gen.pl:240-244, 290-294 *)
Fixpoint gen_lst (g : tm -> reg -> st -> option (list inst * st)) (l : list (reg * tm)) (s : st) : option (list inst * st) :=
  match l with
  | [] => Some ([], s)
  | (x, t) :: l =>
    match g t x s with
    | Some (c1, s) => match gen_lst g l s with Some (c2, s) => Some (c1 ++ c2, s) | None => None end
    | None => None
    end
  end.
Definition auxs (l : list (nat * tm)) : list (reg * tm) := map (fun p => (T (fst p), snd p)) l.
(** gen_unif_arg, code_gen.pl:251-283; [k]: at least the depth of the term *)
Fixpoint gen_unif (k : nat) (t : tm) (x : reg) (s : st) : option (list inst * st) :=
  match t with
  | Tv n => Some (unif_var n x s)
  | Tc b => Some ([get_arg (i_get_const b) x], s)
  | Tf f l =>
    match k with
    | O => None
    | S k =>
      let '(fa, ax, s) := flat true t s in
      let (c1, s) := gen_sub [] fa s in
      match gen_lst (gen_unif k) (auxs ax) s with
      | Some (c2, s) => Some (get_arg (i_get_structure f (length l)) x :: c1 ++ c2, s)
      | None => None
      end
    end
  end.
(** gen_load_arg, code_gen.pl:301-355 *)
Fixpoint gen_load (k : nat) (t : tm) (x : reg) (s : st) : option (list inst * st) :=
  match t with
  | Tv n => Some (load_var n x s)
  | Tc b => Some ([put_arg (i_put_const b) x], s)
  | Tf f l =>
    match k with
    | O => None
    | S k =>
      match (if f =? mt then match l with [Tc (Catm m); g] => Some (m, g) | _ => None end else None) with
      | Some (m, g) =>
        let (x1, s) := new_reg s in
        match gen_load k g (T x1) s with
        | Some (c1, s) => Some (c1 ++ [put_meta_term (i_module m) (T x1) x], s)
        | None => None
        end
      | None =>
        let '(fa, ax, s) := flat false t s in
        match gen_lst (gen_load k) (auxs ax) s with
        | Some (c1, s) =>
          let (c2, s) := gen_sub [] fa s in
          Some (c1 ++ put_arg (i_put_structure f (length l)) x :: c2, s)
        | None => None
        end
      end
    end
  end.

(** * Arguments of the head and of the goals *)
(** has_temporaries, code_gen.pl:225-233 *)
Fixpoint has_temporaries (t : tm) : bool :=
  match t with
  | Tv n => match kd n with KX => true | _ => false end
  | Tc _ => false
  | Tf _ l => existsb has_temporaries l
  end.
(** split_arg_lst, code_gen.pl:192-220: known, structures, temporaries *)
Fixpoint split_arg_lst (l : list (reg * tm)) : list (reg * tm) * list (reg * tm) * list (reg * tm) :=
  match l with
  | [] => ([], [], [])
  | p :: l =>
    let '(lk, ls, lt) := split_arg_lst l in
    match snd p with
    | Tv _ => if has_temporaries (snd p) then (lk, ls, p :: lt) else (p :: lk, ls, lt)
    | Tc _ => (p :: lk, ls, lt)
    | Tf _ _ => if has_temporaries (snd p) then (lk, p :: ls, lt) else (p :: lk, ls, lt)
    end
  end.
(** code_gen.pl:51-56, 67-74, 145-150, 177-182 *)
Definition reorder_head_arg_lst (l : list (reg * tm)) : list (reg * tm) :=
  if reorder fl then let '(lk, ls, lt) := split_arg_lst l in lk ++ rev lt ++ ls else l.
Definition reorder_body_arg_lst (l : list (reg * tm)) : list (reg * tm) :=
  if reorder fl then let '(lk, ls, lt) := split_arg_lst l in ls ++ lt ++ lk else l.
(** LReg: 0 ... N-1 *)
Definition arg_regs (l : list tm) : list (reg * tm) := combine (map A (seq 0 (length l))) l.
Fixpoint depth (t : tm) : nat :=
  match t with Tf _ l => S (fold_right (fun t d => max (depth t) d) 0 l) | _ => 0 end.
Definition unif_arg (t : tm) := gen_unif (depth t) t.
Definition load_arg (t : tm) := gen_load (depth t) t.
(** load_by_reg_arg_lst, code_gen.pl:819-823 *)
Fixpoint load_by_reg_arg_lst (l : list tm) (s : st) : option (list inst * list nat * st) :=
  match l with
  | [] => Some ([], [], s)
  | t :: l =>
    let (x, s) := new_reg s in
    match load_arg t (T x) s with
    | Some (c1, s) =>
      match load_by_reg_arg_lst l s with Some (c2, lx, s) => Some (c1 ++ c2, x :: lx, s) | None => None end
    | None => None
    end
  end.
End Gen.

(** generate_body, generate_body1, gen_inline_pred, code_gen.pl:79-87, 129-162, 863-870; [nb]: NbChunk; last_pred stays true once it is *)
Section Body.
Variable fl : flags.
Variable kd : nat -> kind.
Definition end_code (no : nat) (last : bool) : list inst :=
  if last then (if 1 <? no then [other i_deallocate] else []) else [].
Fixpoint generate_body (lp : bool) (nb : nat) (l : list (nat * goal)) (s : st) : option (list inst) :=
  match l with
  | [] => Some [other i_proceed]
  | (no, g) :: l =>
    let lp := lp || (no =? nb) in
    let last := match l with [] => true | _ => false end in
    if g_inl g then
      match load_by_reg_arg_lst fl kd lp (g_args g) s with
      | Some (c1, lx, s) =>
        let c2 := call_c (i_call_c (g_pred g)) false None (map (fun x => CX (T x)) lx) in
        if last then Some (c1 ++ c2 :: end_code no last ++ [other i_proceed])
        else match generate_body lp nb l s with Some c3 => Some (c1 ++ c2 :: c3) | None => None end
      | None => None
      end
    else
      match gen_lst (load_arg fl kd lp) (reorder_body_arg_lst fl kd (arg_regs (g_args g))) s with
      | Some (c1, s) =>
        if last then Some (c1 ++ end_code no last ++ [call (i_execute (g_pred g)) (length (g_args g))])
        else match generate_body lp nb l s with Some c3 => Some (c1 ++ call (i_call (g_pred g)) (length (g_args g)) :: c3) | None => None end
      | None => None
      end
  end.
End Body.
(** generate_head, code_generation, code_gen.pl:39-62 *)
Definition max_var (l : list nat) : nat := fold_right (fun n m => max (S n) m) 0 l.
Definition compile (fl : flags) (c : clause) : option (list inst) :=
  let (body, nb) := chunks true 0 (c_body c) in
  let d := dico (c_head c) body in
  let (k, nby) := classif_vars d (if native fl then 0 else 3) in
  let kd := kind_of k in
  let s := St (max_var (map d_var d)) (fun _ => None) in
  match gen_lst (unif_arg fl kd) (reorder_head_arg_lst fl kd (arg_regs (c_head c))) s with
  | Some (c1, s) =>
    match generate_body fl kd false nb body s with
    | Some c2 => Some ((if 1 <? nb then [other (i_allocate nby)] else []) ++ c1 ++ c2)
    | None => None
    end
  | None => None
  end.
