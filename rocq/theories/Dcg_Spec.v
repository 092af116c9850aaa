(** C62: what a grammar body means, and what the clause means.

    The values of the user's variables are given.  [W]: the lists; a non-terminal is a relation between the
    list before and the list after. *)
Require Import List Bool Arith.
Require Import Verif.Dcg_Model.
Import ListNotations.

Record interp (W : Type) : Type := Interp { cns : nat -> W -> W; nt : nat -> W -> W -> Prop; phr : nat -> W -> W -> Prop; gl : nat -> Prop }.
Arguments cns {W}. Arguments nt {W}. Arguments phr {W}. Arguments gl {W}.
Definition consn {W : Type} (J : interp W) (ts : list nat) (x : W) : W := fold_right (cns J) x ts.

(** the grammar body: from the list x to the list y *)
Fixpoint means {W : Type} (J : interp W) (d : dcg) (x y : W) : Prop :=
  match d with
  | DVar v => phr J v x y
  | DNil | DCut => x = y
  | DTerm t ts => x = consn J (t :: ts) y
  | DErr _ => False
  | DComma a b | DIf _ a b => exists z, means J a x z /\ means J b z y
  | DOr a b =>
    match a with
    | DIf _ c t => (exists z, means J c x z /\ means J t z y) \/ (~ (exists z, means J c x z) /\ means J b x y)
    | _ => means J a x y \/ means J b x y
    end
  | DNeg a => ~ (exists z, means J a x z) /\ x = y
  | DBrace g => gl J g /\ x = y
  | DNt p => nt J p x y
  end.

(** an assignment of lists to the variables respects the bindings *)
Definition sat {W : Type} (J : interp W) (l : list bnd) (r : nat -> W) : Prop := forall x ts w, In (x, (ts, w)) l -> r x = consn J ts (r w).
Definition outside {W : Type} (lo hi : nat) (r r' : nat -> W) : Prop := forall v, v < lo \/ hi <= v -> r' v = r v.
(** the goals of the clause; [F]: the assignments which respect the bindings.  The variables which only occur in the goal of
    \+, or in an if-then, are not fixed there *)
Fixpoint holds {W : Type} (J : interp W) (F : (nat -> W) -> Prop) (g : goal) (r : nat -> W) : Prop :=
  match g with
  | GTrue | GCut => True
  | GEq a ts b => r a = consn J ts (r b)
  | GPhr x a b => phr J x (r a) (r b)
  | GNt p a b => nt J p (r a) (r b)
  | GGoal g => gl J g
  | GAnd x y | GIf _ _ _ x y => holds J F x r /\ holds J F y r
  | GOr x y =>
    match x with
    | GIf _ lo hi c t => (holds J F c r /\ holds J F t r) \/ (~ (exists r', outside lo hi r r' /\ F r' /\ holds J F c r') /\ holds J F y r)
    | _ => holds J F x r \/ holds J F y r
    end
  | GNeg lo hi x => ~ (exists r', outside lo hi r r' /\ F r' /\ holds J F x r')
  end.
(** the clause: head(…, x, y) :- goal *)
Definition clause_means {W : Type} (J : interp W) (c : goal * st) (x y : W) : Prop :=
  exists r, sat J (bl (snd c)) r /\ r 0 = x /\ r 1 = y /\ holds J (sat J (bl (snd c))) (fst c) r.
(** the rule: the body, then the terminals are put back *)
Definition rule_means {W : Type} (J : interp W) (push : list nat) (d : dcg) (x y : W) : Prop :=
  exists z, means J d x z /\ y = consn J push z.

(** the first error *)
Fixpoint first_err (d : dcg) : option err :=
  match d with
  | DErr e => Some e
  | DComma a b | DIf _ a b | DOr a b => match first_err a with Some e => Some e | None => first_err b end
  | DNeg a => first_err a
  | _ => None
  end.
(** the body is translated by making both lists the same variable; [opt]: it is not the last one of the body *)
Fixpoint same_var (opt : bool) (d : dcg) : bool :=
  match d with
  | DNil => true
  | DComma a b => same_var true a && same_var opt b
  | DIf _ a b => same_var false a && same_var false b
  | DNeg _ | DCut | DBrace _ => opt
  | _ => false
  end.
(** an if-then with nothing but [] around it *)
Fixpoint is_nil (d : dcg) : bool := match d with DNil => true | DComma a b => is_nil a && is_nil b | _ => false end.
Fixpoint is_if (d : dcg) : bool :=
  match d with DIf _ _ _ => true | DComma a b => is_nil a && is_if b || is_if a && is_nil b | _ => false end.
(** no if-then-else whose then part is [], or goals and []; no alternative such as [], (c -> t) *)
Fixpoint then_ok (d : dcg) : bool :=
  match d with
  | DComma a b | DIf _ a b => then_ok a && then_ok b
  | DOr a b => then_ok a && then_ok b && match a with DIf _ _ t => negb (same_var false t) | _ => negb (is_if a) end
  | DNeg a => then_ok a
  | _ => true
  end.
