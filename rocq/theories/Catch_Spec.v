(** What catch/3 and throw/1 mean, without a machine: the answers of a goal in a state, and how they end. *)
Require Import List Arith.
Require Import Verif.Catch_Model.
Import ListNotations.

Section Spec.
Variables St Ball Name : Type.
Variable prog : Name -> goal St Ball Name.

(** failure, failure after a cut of this clause, an exception; [More]: not known with this depth of calls *)
Inductive status := Fail_ | Cut_ | Exc (b : Ball) | More.
Definition result := (list St * status)%type.

(** the answers of a goal for each of the answers of the one before *)
Fixpoint each (f : St -> result) (l : list St) (st : status) : result :=
  match l with
  | [] => ([], st)
  | a :: l =>
    let '(l2, s2) := f a in
    match s2 with Fail_ => let '(l3, s3) := each f l st in (l2 ++ l3, s3) | _ => (l2, s2) end
  end.
Definition opaque (r : result) : result := (fst r, match snd r with Cut_ => Fail_ | st => st end).
Definition then_ (l : list St) (r : result) : result := (l ++ fst r, snd r).

(** depth [n] of calls of predicates.  Only an exception that ends the answers of its Goal reaches a catch/3;
    Recovery starts in the state s in which catch/3 was called *)
Fixpoint solve (n : nat) : goal St Ball Name -> St -> result :=
  fix sv g s :=
  match g with
  | Prim _ _ _ f => (match f s with Some a => [a] | None => [] end, Fail_)
  | Conj _ _ _ g1 g2 => let '(l, st) := sv g1 s in each (sv g2) l st
  | Disj _ _ _ g1 g2 => let '(l, st) := sv g1 s in match st with Fail_ => then_ l (sv g2 s) | _ => (l, st) end
  | If _ _ _ c t e =>
    match sv c s with
    | (a :: _, _) => sv t a
    | ([], Fail_) | ([], Cut_) => sv e s
    | r => r
    end
  | Cut _ _ _ => ([s], Cut_)
  | Call _ _ _ f => opaque (sv (f s) s)
  | Catch _ _ _ f u r =>
    let '(l, st) := opaque (sv (f s) s) in
    match st with
    | Exc b => match u b s with Some s' => then_ l (opaque (sv (r s') s')) | None => (l, st) end
    | _ => (l, st)
    end
  | Throw _ _ _ f => ([], Exc (f s))
  | Pred _ _ _ p => match n with O => ([], More) | S n => opaque (solve n (prog p) s) end
  end.

(** '$no_ball$' is never thrown *)
Fixpoint no_nb (isnb : Ball -> bool) (g : goal St Ball Name) : Prop :=
  match g with
  | Conj _ _ _ g1 g2 | Disj _ _ _ g1 g2 => no_nb isnb g1 /\ no_nb isnb g2
  | If _ _ _ c t e => no_nb isnb c /\ no_nb isnb t /\ no_nb isnb e
  | Call _ _ _ f => forall s, no_nb isnb (f s)
  | Catch _ _ _ f _ r => (forall s, no_nb isnb (f s)) /\ forall s, no_nb isnb (r s)
  | Throw _ _ _ f => forall s, isnb (f s) = false
  | _ => True
  end.
End Spec.
