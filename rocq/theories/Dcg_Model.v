(** The translation of grammar rules (DCG).
    /repo/src/BipsPl/expand_c.c:156-200, 264-495 (Pl_Dcg_Trans_Rule_2, Pl_Dcg_Trans_Body_4, Dcg_Body, Dcg_Body_On_Stack, Dcg_Term_List_On_Stack). *)
Require Import List Bool Arith.
Import ListNotations.

(** the errors: instantiation, type_error(list), type_error(callable) *)
Inductive err : Type := EInst | EList | ECallable.
(** a body, as the tests of Dcg_Body_On_Stack (expand_c.c:355-447) see it; the numbers stand for the user's terms:
    variables, terminals, goals, non-terminals *)
Inductive dcg : Type :=
| DVar (x : nat)                      (* an unbound variable: phrase/3 *)
| DNil                                (* [] *)
| DTerm (t : nat) (ts : list nat)     (* [t|ts], a proper list *)
| DErr (e : err)                      (* a partial list, another list, something not callable *)
| DComma (a b : dcg)
| DIf (soft : bool) (a b : dcg)       (* ->, *-> *)
| DOr (a b : dcg)                     (* ;, | *)
| DNeg (a : dcg)
| DCut
| DBrace (g : nat)
| DNt (p : nat).

(** the goals of the clause; a and b are variables for lists.  [lo], [hi]: the variables which only occur in the goal
    are those from [lo] to [hi] - 1, the variables made meanwhile *)
Inductive goal : Type :=
| GTrue | GCut
| GEq (a : nat) (ts : list nat) (b : nat)   (* a = [ts|b] *)
| GPhr (x a b : nat) | GNt (p a b : nat) | GGoal (g : nat)
| GAnd (x y : goal)
| GIf (soft : bool) (lo hi : nat) (x y : goal)
| GOr (x y : goal)
| GNeg (lo hi : nat) (x : goal).

(** the bindings made by Pl_Unify, in order: a variable, and the list it is bound to *)
Definition bnd : Type := (nat * (list nat * nat))%type.
Definition res (bl : list bnd) (a : nat) : list nat * nat :=
  fold_left (fun (pv : list nat * nat) (x : bnd) => if snd pv =? fst x then (fst pv ++ fst (snd x), snd (snd x)) else pv) bl ([], a).
(** Pl_Unify(a, [ts|b]): the younger variable is bound to the older one (unify.c:49-60).
    [None]: it would go on with the elements of lists, or make a cyclic list *)
Definition add_eq (bl : list bnd) (a : nat) (ts : list nat) (b : nat) : option (list bnd) :=
  let (p, v) := res bl a in
  let (q, w) := res bl b in
  match p, ts ++ q with
  | [], [] => if v =? w then Some bl else Some (bl ++ [(max v w, ([], min v w))])
  | [], l => if v =? w then None else Some (bl ++ [(v, (l, w))])
  | _, _ => None
  end.
(** [nx]: the next variable; [bl]: the bindings; [fl]: opt_term_unif *)
Record st : Type := St { nx : nat; bl : list bnd; fl : bool }.
Inductive result (A : Type) : Type := Ok (x : A) | Err (e : err) | Stuck.
Arguments Ok {A}. Arguments Err {A}. Arguments Stuck {A}.
Definition bind {A B : Type} (r : result A) (k : A -> result B) : result B := match r with Ok x => k x | Err e => Err e | Stuck => Stuck end.
Definition new_var (s : st) : nat * st := (nx s, St (S (nx s)) (bl s) (fl s)).
Definition set_fl (s : st) (f : bool) : st := St (nx s) (bl s) f.
Definition unify (a : nat) (ts : list nat) (b : nat) (s : st) : result st :=
  match add_eq (bl s) a ts b with Some l => Ok (St (nx s) l (fl s)) | None => Stuck end.
(** Dcg_Term_List_On_Stack, expand_c.c:457-495 *)
Definition term_list (ts : list nat) (a b : nat) (s : st) : result (list goal * st) :=
  if fl s then bind (unify a ts b s) (fun s => Ok ([], s)) else Ok ([GEq a ts b], set_fl s true).
(** in_is_out, expand_c.c:366-373 *)
Definition in_is_out (opt : bool) (gs : list goal) (a b : nat) (s : st) : result (list goal * st) :=
  if opt then bind (unify a [] b s) (fun s => Ok (gs, s)) else Ok (gs ++ [GEq a [] b], s).
(** the goals of the stack, expand_c.c:314-329 *)
Fixpoint conj (l : list goal) : goal :=
  match l with [] => GTrue | [g] => g | g :: l => GAnd g (conj l) end.
Definition list_eqb (a b : list nat) : bool := if list_eq_dec Nat.eq_dec a b then true else false.
(** Pl_Blt_Term_Eq of two variables for lists *)
Definition term_eq (l : list bnd) (a b : nat) : bool := list_eqb (fst (res l a)) (fst (res l b)) && (snd (res l a) =? snd (res l b)).

(** Dcg_Body without terminals to put back, expand_c.c:264-336; [os]: Dcg_Body_On_Stack of the body *)
Definition plain_body (os : bool -> nat -> nat -> st -> result (list goal * st)) (a b : nat) (s : st) : result (goal * st) :=
  bind (os false a b s) (fun r => Ok (conj (fst r), set_fl (snd r) (fl s))).
(** an alternative: in_alt is TRUE *)
Definition alt_body (os : bool -> nat -> nat -> st -> result (list goal * st)) (a b : nat) (s : st) : result (goal * st) :=
  let (n, s1) := new_var s in
  bind (os false a n s1) (fun r =>
    if term_eq (bl (snd r)) a n then Ok (conj (GEq n [] b :: fst r), set_fl (snd r) (fl s))
    else bind (unify n [] b (snd r)) (fun s2 => Ok (conj (fst r), set_fl s2 (fl s)))).
(** Dcg_Body_On_Stack, expand_c.c:345-448; [opt]: opt_equal_between_in_out_vars; from line 393 on opt_term_unif is FALSE,
    but the unbound variable of line 356 jumps over this line *)
Fixpoint on_stack (d : dcg) (opt : bool) (a b : nat) (s : st) : result (list goal * st) :=
  match d with
  | DVar x => Ok ([GPhr x a b], s)
  | DNil => in_is_out true [] a b s
  | DTerm t ts => term_list (t :: ts) a b s
  | DErr e => Err e
  | DComma d1 d2 =>
    let (w, s) := new_var s in
    bind (on_stack d1 true a w s) (fun r1 => bind (on_stack d2 opt w b (snd r1)) (fun r2 => Ok (fst r1 ++ fst r2, snd r2)))
  | DIf soft d1 d2 =>
    let lo := nx s in
    let (w, s) := new_var (set_fl s false) in
    bind (plain_body (on_stack d1) a w s) (fun r1 => bind (plain_body (on_stack d2) w b (snd r1)) (fun r2 =>
      Ok ([GIf soft lo (nx (snd r2)) (fst r1) (fst r2)], snd r2)))
  | DOr d1 d2 =>
    bind (alt_body (on_stack d1) a b (set_fl s false)) (fun r1 => bind (alt_body (on_stack d2) a b (snd r1)) (fun r2 =>
      Ok ([GOr (fst r1) (fst r2)], snd r2)))
  | DNeg d1 =>
    let lo := nx s in
    let (w, s) := new_var (set_fl s false) in
    bind (plain_body (on_stack d1) a w s) (fun r => in_is_out opt [GNeg lo (nx (snd r)) (fst r)] a b (snd r))
  | DCut => in_is_out opt [GCut] a b (set_fl s false)
  | DBrace g => in_is_out opt [GGoal g] a b (set_fl s false)
  | DNt p => Ok ([GNt p a b], set_fl s false)
  end.
(** the variables of the head: 0 (in) and 1 (out) *)
Definition start : st := St 2 [] true.
(** Pl_Dcg_Trans_Rule_2 (expand_c.c:156-180); [push]: the terminals to put back, or [] *)
Definition trans_rule (push : list nat) (d : dcg) : result (goal * st) :=
  match push with
  | [] => plain_body (on_stack d) 0 1 start
  | _ =>
    let (n, s) := new_var start in
    bind (on_stack d true 0 n s) (fun r => bind (term_list push 1 n (snd r)) (fun r2 => Ok (conj (fst r ++ fst r2), snd r2)))
  end.
(** Pl_Dcg_Trans_Body_4 (expand_c.c:189-200), with new variables for the lists, as in phrase/3 (expand.pl:86-103) *)
Definition trans_body (d : dcg) : result (goal * st) := plain_body (on_stack d) 0 1 start.
