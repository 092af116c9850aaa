(** What the list predicates should compute (C34): relations between trees, and what it
    means that a state of the memory is the answer for such a relation. *)
Require Import ZArith List.
Require Import Verif.Term_Model Verif.Heap_Model Verif.Heap_Proofs Verif.Unify_Model Verif.Unify_Spec
  Verif.Binding_Model Verif.List_Model.
Import ListNotations.
Open Scope Z_scope.

(** ** Lists, as trees *)
Definition tatom (i : Z) : tree := fun p l => p = [] /\ l = LAtm i.
Definition tint (n : Z) : tree := fun p l => p = [] /\ l = LInt n.
Definition tcons (h t : tree) : tree := fun p l =>
  match p with
  | [] => l = LFun ATOM_DOT 2
  | 0%nat :: p => h p l
  | 1%nat :: p => t p l
  | _ => False
  end.
Definition tlist (xs : list tree) (t : tree) : tree := fold_right tcons t xs.

(** ** The predicates; [k] is the number of elements of the (first) list, or the place of
    the element *)
Definition is_append (nil : Z) (k : nat) (l1 l2 l3 : tree) : Prop :=
  exists xs, length xs = k /\ same_tree l1 (tlist xs (tatom nil)) /\ same_tree l3 (tlist xs l2).
Definition is_member (k : nat) (x l : tree) : Prop :=
  exists xs t, length xs = k /\ same_tree l (tlist xs (tcons x t)).
Definition is_length (nil : Z) (k : nat) (l n : tree) : Prop :=
  exists xs, length xs = k /\ same_tree l (tlist xs (tatom nil)) /\ same_tree n (tint (Z.of_nat k)).
Definition is_reverse (nil : Z) (k : nat) (l1 l2 : tree) : Prop :=
  exists xs, length xs = k /\ same_tree l1 (tlist xs (tatom nil)) /\
             same_tree l2 (tlist (rev xs) (tatom nil)).

(** ** States *)

(** [s] is a state between two calls: the memory is well formed, the heap is free from H
    up to the local stack *)
Definition state_ok (c : cfg) (s : hst) : Prop :=
  wf (LSSA c) (mm (hm s)) /\ 0 <= hH s <= LSSA c /\
  forall a, hH s <= a < LSSA c -> mm (hm s) a = None.

(** the trees of the words of [s], the unbound variables standing for [nu] *)
Definition view (s : hst) (nu : valuation) : word -> tree := lab (mm (hm s)) nu.
(** [I] and [J] give the same trees to the words of [s] *)
Definition agree (c : cfg) (s : hst) (I J : word -> tree) : Prop :=
  forall w, wf_word (LSSA c) (mm (hm s)) w -> same_tree (I w) (J w).

(** the list [w] does not end with a variable *)
Inductive closed_list (m : mem) : word -> Prop :=
| cl_end w u : derefs m w u -> (forall a, u <> REF a) -> (forall a, u <> LST a) -> closed_list m w
| cl_cell w a y : derefs m w (LST a) -> m (a + 1) = Some (Word y) -> closed_list m y -> closed_list m w.

(** A goal is a property of the trees of words.  [answers_goal c s s' E]: going from [s] to
    [s'] restricts the values of the variables to exactly those that meet [E]:
    each valuation of the variables of [s'] gives to the words of [s] trees that they have
    for some valuation of [s], and that meet [E]; and each valuation of [s] meeting [E]
    is obtained. *)
Definition answers_goal (c : cfg) (s s' : hst) (E : (word -> tree) -> Prop) : Prop :=
  state_ok c s' /\
  (forall w, wf_word (LSSA c) (mm (hm s)) w -> wf_word (LSSA c) (mm (hm s')) w) /\
  (forall nu', E (view s' nu') /\ exists nu, agree c s (view s' nu') (view s nu)) /\
  (forall nu, E (view s nu) -> exists nu', agree c s (view s nu) (view s' nu')).

(** no valuation meets [E] *)
Definition no_solution (s : hst) (E : (word -> tree) -> Prop) : Prop :=
  forall nu, ~ E (view s nu).

(** The goal [E] is the disjunction of the goals [E k].  A list of results is right from [b]
    on when the successes are, in the order of [k], the answers of the goals [E k] that have
    solutions; [true] if more may follow. *)
Inductive answers (c : cfg) (s : hst) (E : nat -> (word -> tree) -> Prop)
  : nat -> list (lres hst) -> bool -> Prop :=
| ans_end b : (forall k, (b <= k)%nat -> no_solution s (E k)) -> answers c s E b [] false
| ans_more b : answers c s E b [] true
| ans_ok b k s' l more : (b <= k)%nat ->
    (forall j, (b <= j < k)%nat -> no_solution s (E j)) ->
    answers_goal c s s' (E k) -> answers c s E (S k) l more ->
    answers c s E b (Ok s' :: l) more
| ans_no b l more : answers c s E b l more -> answers c s E b (No :: l) more
(* a Prolog error: only when there is no solution at all *)
| ans_err b l more : (forall k, (b <= k)%nat -> no_solution s (E k)) ->
    answers c s E b (Err :: l) more
(* the run stopped: nothing is said *)
| ans_fatal b l more : answers c s E b (Fatal :: l) more
| ans_fd b l more : answers c s E b (Fd :: l) more.

(** a single result *)
Definition answer_of (c : cfg) (s : hst) (E : (word -> tree) -> Prop) (r : lres hst) : Prop :=
  match r with
  | Ok s' => answers_goal c s s' E
  | No | Err => no_solution s E
  | Fatal | Fd => True
  end.

(** only the first answer *)
Definition first_of (c : cfg) (s : hst) (E : nat -> (word -> tree) -> Prop) (r : lres hst) : Prop :=
  match r with
  | Ok s' => exists k, (forall j, (j < k)%nat -> no_solution s (E j)) /\ answers_goal c s s' (E k)
  | No => forall k, no_solution s (E k)
  | Err => False
  | Fatal | Fd => True
  end.

(** the run does not reach undefined behaviour, and if it ends, [Q] *)
Definition runs {A} (o : outcome A) (Q : A -> Prop) : Prop :=
  match o with Ret x => Q x | UB => False | NoFuel => True end.
