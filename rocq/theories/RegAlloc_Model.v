(** The register allocation of the compiler.  /repo/src/Pl2Wam/reg_alloc.pl:98-466,
    inst_codif.pl:41-174, code_gen.pl:465-471 (what is emitted).

    An unbound Prolog variable standing for a register is [T n]; the variables bound by
    unification are a function [bnd] from numbers to registers, and a list is compared through
    it (==/2 dereferences).  When two unbound variables are unified, the second one is bound.
    A predicate which fails is [None]. *)
Require Import List Bool Arith.
Import ListNotations.

(** a register: an argument (integer) or a temporary (unbound variable), reg_alloc.pl:57-60 *)
Inductive reg : Type := A (n : nat) | T (n : nat).
Definition reg_eqb (x y : reg) : bool :=
  match x, y with A n, A m => n =? m | T n, T m => n =? m | _, _ => false end.

(** the constants of the compiler: atm(_), int(_), flt(_), nil, internal.pl:62-66 *)
Inductive const : Type := Catm (a : nat) | Cint (z : nat) | Cflt (f : nat) | Cnil.
(** the other arguments of the instructions: which instruction of its group it is, and
    its arguments which are not registers *)
Inductive info : Type :=
| i_other (k : nat)
| i_get_variable (y : nat) | i_get_value (y : nat) | i_get_const (c : const) | i_get_structure (f n : nat)
| i_put_variable (y : nat) | i_put_value (y : nat) | i_put_unsafe_value (y : nat) | i_put_const (c : const) | i_put_structure (f n : nat)
| i_module (a : nat)
| i_unify_variable (y : nat) | i_unify_value_y (y : nat) | i_unify_local_value_y (y : nat) | i_unify_value | i_unify_local_value
| i_unify_void (n : nat) | i_unify_const (c : const) | i_unify_structure (f n : nat)
| i_call (p : nat) | i_execute (p : nat) | i_call_c (p : nat)
| i_allocate (n : nat) | i_deallocate | i_proceed.
Coercion i_other : nat >-> info.

(** the instructions of the WAM *)
Inductive carg : Type := CX (r : reg) | CVal (k : nat).
Inductive inst : Type :=
| get_variable_x (tmp arg : reg)
| get_value_x (tmp arg : reg)
| get_arg (k : info) (r : reg)        (* get_variable(y(_)), get_value(y(_)), get_atom, get_integer, get_float, get_nil, get_list, get_structure *)
| put_variable_x (tmp arg : reg)
| put_void (r : reg)
| put_value_x (tmp arg : reg)
| put_arg (k : info) (r : reg)        (* put_variable(y(_)), put_value(y(_)), put_unsafe_value, put_atom, put_integer, put_float, put_nil, put_list, put_structure, math_load_value(y(_)) *)
| put_meta_term (k : info) (r1 r : reg)
| math_load_value (k : info) (r tmp : reg)
| unify_variable_x (tmp : reg)
| unify_value_x (k : info) (tmp : reg)     (* unify_value, unify_local_value *)
| call (k : info) (n : nat)           (* call, execute of a predicate with n arguments *)
| get_current_choice_x (tmp : reg)
| cut_x (k : info) (tmp : reg)        (* cut, soft_cut *)
| call_c (k : info) (stop : bool) (ret : option reg) (l : list carg)
      (* [stop]: options jump or use_x_args; [ret]: option x(Tmp) *)
| other (k : info).                   (* instructions which use no temporaries *)

(** reg_alloc.pl:49-51 *)
Inductive code : Type := r (x : reg) | w (x : reg) | c (x y : reg).

(** inst_codif.pl:41-49 *)
Definition alias_stop_instruction (i : inst) : bool :=
  match i with call _ _ => true | call_c _ stop _ _ => stop | _ => false end.

(** inst_codif.pl:150-154 *)
Definition lst_r_for_call_execute (n : nat) : list code := map (fun i => r (A i)) (seq 0 n).
(** inst_codif.pl:167-174 *)
Fixpoint lst_rw_for_c_call (l : list carg) (e : list code) : list code :=
  match l with
  | [] => e
  | CX x :: l => r x :: lst_rw_for_c_call l (w x :: e)
  | CVal _ :: l => lst_rw_for_c_call l e
  end.
(** inst_codif.pl:54-145 *)
Definition codification (i : inst) : list code :=
  match i with
  | get_variable_x tmp arg => [c arg tmp]
  | get_value_x tmp arg => [r tmp; r arg]
  | get_arg _ x => [r x]
  | put_variable_x tmp arg => [w tmp; w arg]
  | put_void x => [w x]
  | put_value_x tmp arg => [c tmp arg]
  | put_arg _ x => [w x]
  | put_meta_term _ x1 x => [r x1; w x]
  | math_load_value _ x tmp => [r x; w tmp]
  | unify_variable_x tmp => [w tmp]
  | unify_value_x _ tmp => [r tmp]
  | call _ n => lst_r_for_call_execute n
  | get_current_choice_x tmp => [w tmp]
  | cut_x _ tmp => [r tmp]
  | call_c _ _ ret l => lst_rw_for_c_call l (match ret with Some tmp => [w tmp] | None => [] end)
  | other _ => []
  end.

(** * Sets, 403-464 *)
Section Sets.
Variable eq : reg -> reg -> bool.
Fixpoint set_elt (l : list reg) (x : reg) : bool :=
  match l with [] => false | y :: l => eq x y || set_elt l x end.
Fixpoint set_add (l : list reg) (x : reg) : list reg :=
  match l with [] => [x] | y :: l => if eq x y then y :: l else y :: set_add l x end.
Fixpoint set_delete (l : list reg) (x : reg) : option (list reg) :=
  match l with
  | [] => None
  | y :: l => if eq x y then Some l else match set_delete l x with Some l => Some (y :: l) | None => None end
  end.
Fixpoint set_union (l1 l2 : list reg) : list reg :=
  match l1 with [] => l2 | x :: l1 => if set_elt l2 x then set_union l1 l2 else x :: set_union l1 l2 end.
Fixpoint set_diff (l l1 : list reg) : list reg :=
  match l with [] => [] | x :: l => if set_elt l1 x then set_diff l l1 else x :: set_diff l l1 end.
End Sets.
Notation elt := (set_elt reg_eqb).
Notation add := (set_add reg_eqb).
Notation delete := (set_delete reg_eqb).
Notation union := (set_union reg_eqb).
Notation diff := (set_diff reg_eqb).

(** * Aliases, 116-180 *)
Definition alias : Type := list (list reg).
(** 143-151 *)
Fixpoint add_alias (al : alias) (x y : reg) : alias :=
  match al with
  | [] => [[x; y]]
  | s :: al => if elt s x then add s y :: al else s :: add_alias al x y
  end.
(** 156-160 *)
Fixpoint find_aliases_of (al : alias) (x : reg) : option (list reg) :=
  match al with
  | [] => None
  | s :: al => match delete s x with Some s => Some s | None => find_aliases_of al x end
  end.
(** 165-177 *)
Fixpoint remove_aliases_of (al : alias) (x : reg) : alias :=
  match al with
  | [] => []
  | s :: al =>
    match delete s x with
    | Some ([] | [_]) => al
    | Some s => s :: al
    | None => s :: remove_aliases_of al x
    end
  end.
(** 127-138 *)
Fixpoint aliases1 (l : list code) (al : alias) : alias :=
  match l with
  | [] => al
  | r _ :: l => aliases1 l al
  | w x :: l => aliases1 l (remove_aliases_of al x)
  | c x y :: l => aliases1 l (add_alias (remove_aliases_of al y) x y)
  end.
Definition next_alias (i : inst) (al : alias) : alias :=
  if alias_stop_instruction i then [] else aliases1 (codification i) al.
(** 116-124 *)
Fixpoint aliases (l : list inst) (al : alias) : list alias :=
  match l with [] => [] | i :: l => al :: aliases l (next_alias i al) end.

(** * Temporaries, 184-296 *)
(** tmp(Reg, Imposs, Wish) *)
Record tmp : Type := Tmp { t_reg : nat; t_imposs : list reg; t_wish : list reg }.
(** 257-268 *)
Fixpoint update_tmp (l : list tmp) (t : nat) (imposs wish : list reg) : list tmp :=
  match l with
  | [] => [Tmp t imposs wish]
  | x :: l =>
    if t =? t_reg x then Tmp t (union imposs (t_imposs x)) (union wish (t_wish x)) :: l
    else x :: update_tmp l t imposs wish
  end.
(** 287-294 *)
Fixpoint make_imposs (cstr imposs : list reg) (l : list tmp) : list tmp :=
  match cstr with
  | [] => l
  | x :: cstr => make_imposs cstr imposs (match x with T t => update_tmp l t imposs [] | A _ => l end)
  end.
(** 247-252; [opt]: reg_opt *)
Definition constraints (opt : nat) (x : reg) (life : list reg) (al : alias) : list reg :=
  if opt =? 2 then match find_aliases_of al x with Some s => diff life s | None => life end else life.

Definition nonempty (l : list reg) : bool := match l with [] => false | _ => true end.
(** 203-218 *)
Definition handle_r (opt : nat) (x : reg) (al : alias) (wish life : list reg) (l : list tmp)
  : list reg * list tmp :=
  if elt life x then
    (life, match x with T t => if nonempty wish then update_tmp l t [] wish else l | A _ => l end)
  else
    let cstr := constraints opt x life al in
    let l := make_imposs cstr [x] l in
    (x :: life, match x with T t => update_tmp l t cstr wish | A _ => l end).
(** 220-238 *)
Definition handle_w (opt : nat) (x : reg) (al : alias) (wish life : list reg) (l : list tmp)
  : list reg * list tmp :=
  match delete life x with
  | Some life1 =>
    (life1, match x with T t => if nonempty wish then update_tmp l t [] wish else l | A _ => l end)
  | None =>
    (life, match x with
           | T t =>
             let cstr := constraints opt x life al in
             let cstr := if nonempty wish then diff cstr wish else cstr in
             update_tmp (make_imposs cstr [x] l) t cstr wish
           | A _ => l
           end)
  end.
(** 203-242 *)
Definition handle_one_code (opt : nat) (k : code) (al : alias) (life : list reg) (l : list tmp)
  : list reg * list tmp :=
  match k with
  | r x => handle_r opt x al [] life l
  | w x => handle_w opt x al [] life l
  | c x y =>
    let (life, l) := handle_w opt y al [x] life l in
    handle_r opt x al [y] life l
  end.
(** 194-198 *)
Fixpoint handle_lst_code (opt : nat) (k : list code) (al : alias) (life : list reg) (l : list tmp)
  : list reg * list tmp :=
  match k with
  | [] => (life, l)
  | x :: k => let (life, l) := handle_lst_code opt k al life l in handle_one_code opt x al life l
  end.
(** 184-189; the aliases of the instructions from this one on are computed on the way *)
Fixpoint create_lst_tmp (opt : nat) (i : list inst) (al : alias) : list reg * list tmp :=
  match i with
  | [] => ([], [])
  | x :: i =>
    let (life, l) := create_lst_tmp opt i (next_alias x al) in
    handle_lst_code opt (codification x) al life l
  end.

(** * Assignment, 301-398 *)
Definition binding : Type := nat -> reg.
Definition val (s : binding) (x : reg) : reg := match x with A n => A n | T n => s n end.
Definition same (s : binding) (x y : reg) : bool := reg_eqb (val s x) (val s y).
Definition bind (s : binding) (t : nat) (x : reg) : binding :=
  fun n => match s n with T m => if m =? t then x else T m | A m => A m end.

(** 273-281 *)
Fixpoint remove_tmp (s : binding) (l : list tmp) (x : reg) : option (tmp * list tmp) :=
  match l with
  | [] => None
  | y :: l =>
    if same s x (T (t_reg y)) then Some (y, l)
    else match remove_tmp s l x with Some (z, l) => Some (z, y :: l) | None => None end
  end.
(** 326-343; [k]: the number of temporaries of [l]; the result is Wish1, Imposs1, LTmp1 *)
Fixpoint collapse_tmps (k : nat) (s : binding) (wish imposs : list reg) (l : list tmp) (t : nat)
  : option (binding * list reg * list reg * list tmp) :=
  (fix go (wish : list reg) : option (binding * list reg * list reg * list tmp) :=
    match wish with
    | [] => Some (s, [], imposs, l)
    | x :: wish =>
      if same s x (T t) || set_elt (same s) imposs x then go wish
      else
        match val s x with
        | A n =>
          match go wish with
          | Some (s, w1, imposs, l) => Some (s, A n :: w1, imposs, l)
          | None => None
          end
        | T t1 =>
          match k with
          | O => None
          | S k =>
            match remove_tmp s l x with
            | Some (y, l) =>
              let imposs := set_union (same s) imposs (t_imposs y) in
              let wish := set_union (same s) wish (t_wish y) in
              collapse_tmps k (bind s t1 (T t)) wish imposs l t
            | None => None
            end
          end
        end
    end) wish.
(** 348-351 *)
Definition try_a_whish (s : binding) (t : nat) (imposs wish : list reg) : binding :=
  match set_diff (same s) wish imposs with x :: _ => bind s t (val s x) | [] => s end.
Definition is_var (x : reg) : bool := match x with T _ => true | A _ => false end.
(** 312-321 *)
Fixpoint assign_wishes (k : nat) (s : binding) (l : list tmp) : option (binding * list (nat * list reg)) :=
  match k, l with
  | _, [] => Some (s, [])
  | O, _ => None
  | S k, x :: l =>
    match collapse_tmps (length l) s (t_wish x) (t_imposs x) l (t_reg x) with
    | None => None
    | Some (s, wish, imposs, l) =>
      let s := try_a_whish s (t_reg x) imposs wish in
      match assign_wishes k s l with
      | None => None
      | Some (s', d) => Some (s', if is_var (s (t_reg x)) then (t_reg x, imposs) :: d else d)
      end
    end
  end.
(** 356-363 *)
Definition no_wish (opt : nat) (l : list tmp) : list (nat * list reg) :=
  map (fun x => (t_reg x, if opt =? 0 then union (t_imposs x) (t_wish x) else t_imposs x)) l.

(** sort/2: the variables come first (their order is not used), then the integers in
    increasing order, each once *)
Fixpoint insert_int (n : nat) (l : list nat) : list nat :=
  match l with
  | [] => [n]
  | m :: l => if n <? m then n :: m :: l else if n =? m then m :: l else m :: insert_int n l
  end.
Fixpoint vars_ints (l : list reg) : list reg * list nat :=
  match l with
  | [] => ([], [])
  | x :: l => let (v, i) := vars_ints l in match x with T _ => (x :: v, i) | A n => (v, insert_int n i) end
  end.
Definition sort (l : list reg) : list reg := let (v, i) := vars_ints l in v ++ map A i.
(** 382-396 *)
Fixpoint find_hole (l : list reg) (nb : nat) : nat :=
  match l with
  | [] => nb
  | T _ :: l => find_hole l nb
  | A n :: l => if nb <? n then nb else find_hole l (if n =? nb then nb + 1 else nb)
  end.
(** 368-377; [m]: MaxRegUsed + 1 *)
Fixpoint assign_values (s : binding) (l : list (nat * list reg)) (m : nat) : binding * nat :=
  match l with
  | [] => (s, m)
  | (t, imposs) :: l =>
    let n := find_hole (sort (map (val s) imposs)) 0 in
    assign_values (bind s t (A n)) l (if m <=? n then S n else m)
  end.
(** 301-307 *)
Definition assign_lst_tmp (opt : nat) (l : list tmp) : option (binding * nat) :=
  match (if opt =? 2 then assign_wishes (length l) T l else Some (T, no_wish opt l)) with
  | Some (s, d) => Some (assign_values s d 0)
  | None => None
  end.
(** 98-109 *)
Definition allocate_registers (opt : nat) (i : list inst) : option (binding * nat) :=
  assign_lst_tmp opt (snd (create_lst_tmp opt i [])).

(** * The code after the allocation *)
Definition map_carg (f : reg -> reg) (a : carg) : carg := match a with CX x => CX (f x) | CVal k => CVal k end.
Definition map_inst (f : reg -> reg) (i : inst) : inst :=
  match i with
  | get_variable_x t a => get_variable_x (f t) (f a)
  | get_value_x t a => get_value_x (f t) (f a)
  | get_arg k x => get_arg k (f x)
  | put_variable_x t a => put_variable_x (f t) (f a)
  | put_void x => put_void (f x)
  | put_value_x t a => put_value_x (f t) (f a)
  | put_arg k x => put_arg k (f x)
  | put_meta_term k x1 x => put_meta_term k (f x1) (f x)
  | math_load_value k x t => math_load_value k (f x) (f t)
  | unify_variable_x t => unify_variable_x (f t)
  | unify_value_x k t => unify_value_x k (f t)
  | call k n => call k n
  | get_current_choice_x t => get_current_choice_x (f t)
  | cut_x k t => cut_x k (f t)
  | call_c k stop ret l => call_c k stop (option_map f ret) (map (map_carg f) l)
  | other k => other k
  end.
(** code_gen.pl:465-471 and wam_emit.pl:255-261: special_form, dummy_instruction;
    [keep]: the flag keep_void_inst *)
Definition emit1 (keep : bool) (i : inst) : list inst :=
  match i with
  | put_variable_x x y => if reg_eqb x y then [put_void x] else [i]
  | get_variable_x x y | put_value_x x y => if negb keep && reg_eqb x y then [] else [i]
  | _ => [i]
  end.
Definition emit_code (keep : bool) (l : list inst) : list inst := flat_map (emit1 keep) l.
