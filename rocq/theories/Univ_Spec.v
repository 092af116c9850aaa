(** What arg/3, functor/3, =../2 and setarg/3 should do (C65, C66): relations between trees,
    as for the list predicates (List_Spec.v). *)
Require Import ZArith List.
Require Import Verif.Term_Model Verif.Heap_Model Verif.Heap_Proofs Verif.Unify_Model Verif.Unify_Spec
  Verif.Binding_Model Verif.List_Model Verif.List_Spec Verif.Univ_Model.
Import ListNotations.
Open Scope Z_scope.

(** ** Trees *)
(** a tree with one node *)
Definition tleaf (l : label) : tree := fun p l' => p = [] /\ l' = l.
(** the compound term f(ts) *)
Definition tnode (f : Z) (ts : list tree) : tree := fun p l =>
  match p with
  | [] => l = LFun f (length ts)
  | i :: p => match nth_error ts i with Some t => t p l | None => False end
  end.
(** atoms, numbers; an FD variable is taken as a constant *)
Definition atomic (l : label) : Prop :=
  match l with LInt _ | LAtm _ | LFlt _ | LFdv _ => True | _ => False end.

(** ** The predicates *)
Definition is_arg (n t x : tree) : Prop :=
  exists i f ts y, same_tree n (tint (Z.of_nat i + 1)) /\ same_tree t (tnode f ts) /\
    nth_error ts i = Some y /\ same_tree x y.
Definition is_functor (t f a : tree) : Prop :=
  (exists g ts, ts <> [] /\ same_tree t (tnode g ts) /\ same_tree f (tatom g) /\
     same_tree a (tint (Z.of_nat (length ts)))) \/
  (exists l, atomic l /\ same_tree t (tleaf l) /\ same_tree f (tleaf l) /\ same_tree a (tint 0)).
Definition is_univ (nil : Z) (t l : tree) : Prop :=
  (exists g ts, ts <> [] /\ same_tree t (tnode g ts) /\
     same_tree l (tlist (tatom g :: ts) (tatom nil))) \/
  (exists b, atomic b /\ same_tree t (tleaf b) /\ same_tree l (tlist [tleaf b] (tatom nil))).

(** ** Results with errors *)
(** an error other than "not enough instantiated" and "too many arguments" is only raised
    when there is no solution *)
Definition right_answer (c : cfg) (s : hst) (E : (word -> tree) -> Prop) (r : chk (lres hst)) : Prop :=
  match r with
  | Val r => answer_of c s E r
  | Raise EInst | Raise EMaxArity => True
  | Raise _ => no_solution s E
  end.

(** the errors of functor/3 when the first argument is unbound (ISO 8.5.1.3): [f] and [a] are
    the dereferenced name and arity *)
Definition functor_error (maxa : Z) (f a : word) : option err :=
  match f, a with
  | REF _, _ => Some EInst
  | (LST _ | STC _ | FDV _), _ => Some EAtomic
  | _, REF _ => Some EInst
  | ATM _, INT n => if n <? 0 then Some ENegative else if maxa <? n then Some EMaxArity else None
  | _, INT n => if n <? 0 then Some ENegative else if maxa <? n then Some EMaxArity
                else if n =? 0 then None else Some EAtom
  | _, _ => Some EInteger
  end.

(** the errors of arg/3 (ISO 8.5.2.3), [n] and [t] the dereferenced number and term *)
Definition arg_error (n t : word) : option err :=
  match n with
  | REF _ => Some EInst
  | INT i => if i <? 0 then Some ENegative else
    match t with REF _ => Some EInst | LST _ | STC _ => None | _ => Some ECompound end
  | _ => Some EInteger
  end.

(** the list [w] has [k] cells and the end [u] *)
Inductive ends (m : mem) : word -> nat -> word -> Prop :=
| ends_end w u : derefs m w u -> (forall a, u <> LST a) -> ends m w 0 u
| ends_cell w a y k u : derefs m w (LST a) -> m (a + 1) = Some (Word y) -> ends m y k u -> ends m w (S k) u.
(** the errors of =../2 when the first argument is unbound (ISO 8.5.3.3): the list has the
    dereferenced head [h], [k] more elements and the end [u] *)
Definition univ_error (nil maxa : Z) (h : word) (k : nat) (u : word) : option err :=
  match h with
  | REF _ => Some EInst
  | _ =>
    match k with
    | O =>
      match u, h with
      | REF _, _ => Some EInst
      | _, _ =>
        if word_eqb u (ATM nil) then match h with ATM _ | INT _ | FLT _ => None | _ => Some EAtomic end
        else match h with ATM _ => Some EList | _ => Some EAtom end
      end
    | S _ =>
      match h with
      | ATM _ =>
        match u with
        | REF _ => Some EInst
        | _ => if word_eqb u (ATM nil) then if maxa <? Z.of_nat k then Some EMaxArity else None else Some EList
        end
      | _ => Some EAtom
      end
    end
  end.

(** ** setarg/4 *)
(** what backtracking must restore: the cells older than the last choice point *)
Definition older (c : cfg) (a : addr) : Prop := a < HB1 c \/ LSSA c <= a < BB c.
(** only the cell [a] changes: its new content is [w] *)
Definition changed (s s' : hst) (a : addr) (w : word) : Prop :=
  mm (hm s') a = Some (Word w) /\ (forall x, x <> a -> mm (hm s') x = mm (hm s) x) /\ hH s' = hH s.
(** the arguments of the compound word [w] are the [n] cells from [a] on *)
Definition args_at (m : mem) (w : word) (n : nat) (a : addr) : Prop :=
  (derefs m w (LST a) /\ n = 2%nat) \/ (exists f, derefs m w (STC (a - 1)) /\ m (a - 1) = Some (Func f n)).
Definition setarg_error (tt ff : Z) (n t v u : word) : option err :=
  match t with
  | REF _ => Some EInst
  | LST _ | STC _ =>
    match n with
    | REF _ => Some EInst
    | INT i =>
      if i <? 0 then Some ENegative else
      match u with
      | REF _ => Some EInst
      | ATM j =>
        if j =? tt then None
        else if j =? ff then match v with ATM _ | INT _ => None | _ => Some EAtomic end
        else Some EBoolean
      | _ => Some EBoolean
      end
    | _ => Some EInteger
    end
  | _ => Some ECompound
  end.
