(** The compilation of =/2 in the body of a clause.
    /repo/src/Pl2Wam/code_gen.pl:513-597 (equal, equal_lst, inline_unif_reg_term), 251-265 (treat_body).
    Clause_Model.v, with the goals =/2: inline goals of the predicate [eq2] with two arguments. *)
Require Import List Bool Arith.
Require Import Verif.RegAlloc_Model Verif.Clause_Model.
Import ListNotations.

Definition eq2 : nat := 0.
Definition as_eq (g : goal) : option (tm * tm) :=
  if g_inl g && (g_pred g =? eq2) then match g_args g with [a; b] => Some (a, b) | _ => None end else None.
Definition fail_inst : inst := other (i_other 0).
(** ==/2 *)
Definition const_eqb (a b : const) : bool :=
  match a, b with Catm n, Catm m | Cint n, Cint m | Cflt n, Cflt m => n =? m | Cnil, Cnil => true | _, _ => false end.
Fixpoint tm_eqb (a b : tm) : bool :=
  match a, b with
  | Tv n, Tv m => n =? m
  | Tc b1, Tc b2 => const_eqb b1 b2
  | Tf f l, Tf g l' => (f =? g) && (fix go (l l' : list tm) : bool := match l, l' with [], [] => true | a :: l, b :: l' => tm_eqb a b && go l l' | _, _ => false end) l l'
  | _, _ => false
  end.
(** the variables which equal/4 has unified (code_gen.pl:529-530): [al n] is the one which stands for n *)
Fixpoint subst (al : nat -> nat) (t : tm) : tm :=
  match t with Tv n => Tv (al n) | Tc b => Tc b | Tf f l => Tf f (map (subst al) l) end.
Definition unify_vars (al : nat -> nat) (n m : nat) : nat -> nat := fun k => if al k =? m then n else al k.

Section Gen.
Variable fl : flags.
Variable kd : nat -> kind.
Variable last_pred : bool.
(** gen_unif_arg when treat_body is true, code_gen.pl:251-283 *)
Definition unif_var_body (n : nat) (x : reg) (s : st) : list inst * st :=
  match inf s n with
  | None =>
    match kd n with
    | KVoid => ([], s)
    | KX => ([get_variable_x (T n) x], set_inf s n not_in_cur_env)
    | KY y => ([get_arg (i_get_variable y) x], set_inf s n unsafe)
    end
  | Some _ => (match kd n with KY y => [get_arg (i_get_value y) x] | _ => [get_value_x (T n) x] end, s)
  end.
Fixpoint gen_unif_body (k : nat) (t : tm) (x : reg) (s : st) : option (list inst * st) :=
  match t with
  | Tv n => Some (unif_var_body n x s)
  | Tc b => Some ([get_arg (i_get_const b) x], s)
  | Tf f l =>
    match k with
    | O => None
    | S k =>
      let '(fa, ax, s) := flat fl true t s in
      let (c1, s) := gen_sub kd [] fa s in
      match gen_lst (gen_unif_body k) (auxs ax) s with
      | Some (c2, s) => Some (get_arg (i_get_structure f (length l)) x :: c1 ++ c2, s)
      | None => None
      end
    end
  end.
Definition unif_arg_body (t : tm) := gen_unif_body (depth t) t.
(** inline_unif_reg_term, code_gen.pl:584-597; [n]: the variable of the register *)
Definition inline_unif_reg_term (n : nat) (t : tm) (s : st) : option (list inst * st) :=
  match inf s n with
  | None =>
    match load_arg fl kd last_pred t (T n) s with
    | Some (c1, s) => match inf s n with None => Some (c1, set_inf s n in_heap) | Some _ => Some ([fail_inst], s) end
    | None => None
    end
  | Some _ => unif_arg_body t (T n) s
  end.
(** a variable and a term, code_gen.pl:532-560 *)
Definition equal_var (n : nat) (t : tm) (s : st) : option (list inst * st) :=
  match kd n with
  | KX => inline_unif_reg_term n t s
  | KVoid => Some ([], s)
  | KY _ =>
    let (x, s) := new_reg s in
    let (c1, s) := load_var kd last_pred n (T x) s in
    match unif_arg_body t (T x) s with Some (c2, s) => Some (c1 ++ c2, s) | None => None end
  end.
Definition first_void (t : tm) (s : st) : bool := match t with Tv n => is_void kd n && match inf s n with None => true | Some _ => false end | _ => false end.
Definition first_x (n : nat) (s : st) : bool := match kd n, inf s n with KX, None => true | _, _ => false end.
(** equal, equal_lst, code_gen.pl:519-579; [k]: at least the depth of the terms *)
Fixpoint equal (k : nat) (t1 t2 : tm) (s : st) (al : nat -> nat) : option (list inst * st * (nat -> nat)) :=
  let t1 := subst al t1 in
  let t2 := subst al t2 in
  let res (r0 : option (list inst * st)) := match r0 with Some (c1, s) => Some (c1, s, al) | None => None end in
  if tm_eqb t1 t2 then Some ([], s, al)
  else if first_void t1 s || first_void t2 s then Some ([], s, al)
  else
    match t1, t2 with
    | Tv n, Tv m => if first_x n s && first_x m s then Some ([], s, unify_vars al n m) else res (equal_var n t2 s)
    | Tv n, _ => res (equal_var n t2 s)
    | _, Tv m => res (equal_var m t1 s)
    | Tf f l1, Tf g l2 =>
      if (f =? g) && (length l1 =? length l2) then
        match k with
        | O => None
        | S k =>
          (fix lst (l1 l2 : list tm) (s : st) (al : nat -> nat) {struct l1} : option (list inst * st * (nat -> nat)) :=
            match l1, l2 with
            | a :: l1, b :: l2 =>
              match equal k a b s al with
              | Some (c1, s, al) => match lst l1 l2 s al with Some (c2, s, al) => Some (c1 ++ c2, s, al) | None => None end
              | None => None
              end
            | _, _ => Some ([], s, al)
            end) l1 l2 s al
        end
      else Some ([fail_inst], s, al)
    | _, _ => Some ([fail_inst], s, al)
    end.
End Gen.

(** generate_body, code_gen.pl:79-162, with =/2 *)
Fixpoint generate_body_eq (fl : flags) (kd : nat -> kind) (lp : bool) (nb : nat) (l : list (nat * goal)) (s : st) (al : nat -> nat) : option (list inst) :=
  match l with
  | [] => Some [other i_proceed]
  | (no, g) :: l =>
    let lp := lp || (no =? nb) in
    let last := match l with [] => true | _ => false end in
    let args := map (subst al) (g_args g) in
    match as_eq g with
    | Some (a, b) =>
      match equal fl kd lp (max (depth a) (depth b)) a b s al with
      | Some (c1, s, al) =>
        if last then Some (c1 ++ end_code no last ++ [other i_proceed])
        else match generate_body_eq fl kd lp nb l s al with Some c3 => Some (c1 ++ c3) | None => None end
      | None => None
      end
    | None =>
      if g_inl g then
        match load_by_reg_arg_lst fl kd lp args s with
        | Some (c1, lx, s) =>
          let c2 := call_c (i_call_c (g_pred g)) false None (map (fun x => CX (T x)) lx) in
          if last then Some (c1 ++ c2 :: end_code no last ++ [other i_proceed])
          else match generate_body_eq fl kd lp nb l s al with Some c3 => Some (c1 ++ c2 :: c3) | None => None end
        | None => None
        end
      else
        match gen_lst (load_arg fl kd lp) (reorder_body_arg_lst fl kd (arg_regs args)) s with
        | Some (c1, s) =>
          if last then Some (c1 ++ end_code no last ++ [call (i_execute (g_pred g)) (length args)])
          else match generate_body_eq fl kd lp nb l s al with Some c3 => Some (c1 ++ call (i_call (g_pred g)) (length args) :: c3) | None => None end
        | None => None
        end
    end
  end.
Definition compile_eq (fl : flags) (cl : clause) : option (list inst) :=
  let (body, nb) := chunks true 0 (c_body cl) in
  let d := dico (c_head cl) body in
  let (k, nby) := classif_vars d (if native fl then 0 else 3) in
  let kd := kind_of k in
  let s := St (max_var (map d_var d)) (fun _ => None) in
  match gen_lst (unif_arg fl kd) (reorder_head_arg_lst fl kd (arg_regs (c_head cl))) s with
  | Some (c1, s) =>
    match generate_body_eq fl kd false nb body s (fun n => n) with
    | Some c2 => Some ((if 1 <? nb then [other (i_allocate nby)] else []) ++ c1 ++ c2)
    | None => None
    end
  | None => None
  end.

(** for clauses without =/2 this is the model of Clause_Model.v *)
Lemma subst_id : forall t, subst (fun n => n) t = t.
Proof. fix IH 1. intros [n|b|f l]; cbn; [reflexivity|reflexivity|]. f_equal. induction l as [|a l IHl]; cbn; [reflexivity|]. rewrite IH, IHl. reflexivity. Qed.
Lemma generate_body_eq_same : forall fl kd l lp nb s, forallb (fun p => match as_eq (snd p) with None => true | Some _ => false end) l = true ->
  generate_body_eq fl kd lp nb l s (fun n => n) = generate_body fl kd lp nb l s.
Proof.
  intros fl kd. induction l as [|(no, g) l IH]; intros lp nb s H; [reflexivity|]. cbn in H. apply andb_true_iff in H. destruct H as (H1 & H2). destruct (as_eq g) eqn:E; [discriminate H1|]. cbn [generate_body_eq generate_body]. rewrite E.
  assert (ES : map (subst (fun n => n)) (g_args g) = g_args g) by (rewrite <- (map_id (g_args g)) at 2; apply map_ext; apply subst_id). rewrite ES.
  destruct (g_inl g).
  - destruct (load_by_reg_arg_lst fl kd (lp || (no =? nb)) (g_args g) s) as [((c1, lx), s1)|]; [|reflexivity]. rewrite IH by exact H2. reflexivity.
  - destruct (gen_lst (load_arg fl kd (lp || (no =? nb))) (reorder_body_arg_lst fl kd (arg_regs (g_args g))) s) as [(c1, s1)|]; [|reflexivity]. rewrite IH by exact H2. reflexivity.
Qed.
