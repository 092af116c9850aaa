(** The control constructs and the cut of a clause body.
    /repo/src/Pl2Wam/syn_sugar.pl:81-90, 153-221, 239-256, 310-333, 357-378 (syntactic_sugar, normalize_cuts, normalize_cuts1,
    normalize_cuts_in_if, normalize_alts1, linearize, lst_var).

    The goals of the user (calls, call/1, catch/3, throw/1) are numbers with their variables; modules and the rewriting
    of built-in predicates (pred_rewriting) are not modelled.  A logic variable for a cut is a number which
    is not the number of a variable of the clause. *)
Require Import List Bool Arith.
Import ListNotations.

(** the body of a clause *)
Inductive body : Type :=
| BCall (p : nat) (vs : list nat)
| BFail | BCut
| BConj (p q : body)
| BOr (p q : body)
| BIf (p q : body)        (* p -> q *)
| BSoft (p q : body).     (* p *-> q *)
(** after normalize_cuts *)
Inductive nb : Type :=
| NCall (p : nat) (vs : list nat)
| NFail
| NConj (p q : nb)
| NOr (p q : nb)
| NGetLevel (v : nat) | NGetChoice (v : nat) | NCut (v : nat) | NSoft (v : nat).
(** after normalize_alts: the call of an auxiliary predicate, its arguments and the bodies of its clauses *)
Inductive code : Type :=
| CCall (p : nat) (vs : list nat)
| CFail
| CConj (a b : code)
| CAux (vs : list nat) (cls : list code)
| CGetLevel (v : nat) | CGetChoice (v : nat) | CCut (v : nat) | CSoft (v : nat).

Definition is_fail (b : nb) : bool := match b with NFail => true | _ => false end.
(** normalize_cuts_in_if, syn_sugar.pl:249-256; [v]: CutVar *)
Definition in_if (v : nat) (r : nb * bool * nat) : nb * nat :=
  let '(b, has_cut, n) := r in ((if has_cut then NConj (NGetChoice v) b else b), n).
(** normalize_cuts1, syn_sugar.pl:164-239; [optim]: the flag optim_fail; [c]: CutVar; [n]: the next new variable.
    Result: the body, HasCut *)
Fixpoint ncuts (optim : bool) (b : body) (c n : nat) : nb * bool * nat :=
  match b with
  | BCall p vs => (NCall p vs, false, n)
  | BFail => (NFail, false, n)
  | BCut => (NCut c, true, n)
  | BConj p q =>
    let '(p1, h1, n) := ncuts optim p c n in
    let '(q1, h2, n) := ncuts optim q c n in (NConj p1 q1, h1 || h2, n)
  | BIf p q =>
    let v := n in
    let '(p1, _, n) := ncuts optim p v (S n) in
    let '(q1, h, n) := ncuts optim q c n in (NConj (NGetChoice v) (NConj p1 (NConj (NCut v) q1)), h, n)
  | BSoft p q =>
    let v := n in
    let (p1, n) := in_if v (ncuts optim p v (S n)) in
    let '(q1, h, n) := ncuts optim q c n in (NConj p1 q1, h, n)
  | BOr p r =>
    match p with
    | BIf p q =>
      let '(r1, h1, n) := ncuts optim r c n in
      if optim && is_fail r1 then
        let v := n in
        let '(p1, _, n) := ncuts optim p v (S n) in
        let '(q1, h, n) := ncuts optim q c n in (NConj (NGetChoice v) (NConj p1 (NConj (NCut v) q1)), h1 || h, n)
      else
        let v := n in let w := S n in
        let (p1, n) := in_if w (ncuts optim p w (S (S n))) in
        let '(q1, h2, n) := ncuts optim q c n in
        (NOr (NConj (NGetLevel v) (NConj p1 (NConj (NCut v) q1))) r1, h1 || h2, n)
    | BSoft p q =>
      let '(r1, h1, n) := ncuts optim r c n in
      if optim && is_fail r1 then
        let v := n in
        let (p1, n) := in_if v (ncuts optim p v (S n)) in
        let '(q1, h, n) := ncuts optim q c n in (NConj p1 q1, h1 || h, n)
      else
        let v := n in let w := S n in
        let (p1, n) := in_if w (ncuts optim p w (S (S n))) in
        let '(q1, h2, n) := ncuts optim q c n in
        (NOr (NConj (NGetChoice v) (NConj p1 (NConj (NSoft v) q1))) r1, h1 || h2, n)
    | _ =>
      let '(p1, h1, n) := ncuts optim p c n in
      let '(r1, h2, n) := ncuts optim r c n in
      ((if optim && is_fail p1 then r1 else if optim && is_fail r1 then p1 else NOr p1 r1), h1 || h2, n)
    end
  end.
(** normalize_cuts, syn_sugar.pl:153-159 *)
Definition normalize_cuts (optim : bool) (b : body) (c : nat) : nb :=
  let '(b1, has_cut, _) := ncuts optim b c (S c) in if has_cut then NConj (NGetLevel c) b1 else b1.

(** lst_var, syn_sugar.pl:360-378 *)
Fixpoint nvars (b : nb) : list nat :=
  match b with
  | NCall _ vs => vs
  | NFail => []
  | NConj p q | NOr p q => nvars p ++ nvars q
  | NGetLevel v | NGetChoice v | NCut v | NSoft v => [v]
  end.
Definition mem (x : nat) (l : list nat) : bool := existsb (Nat.eqb x) l.
(** set_inter: the variables of the first set which are in the second *)
Definition inter (l1 l2 : list nat) : list nat := filter (fun x => mem x l2) (nodup Nat.eq_dec l1).
(** normalize_alts1, linearize, syn_sugar.pl:316-345; [rest]: the variables of RestC.  The clauses of the auxiliary
    predicate are treated in the same way later, with their head as RestC; their variables are renamed (copy_term) *)
Fixpoint goal (b : nb) (rest : list nat) : code :=
  match b with
  | NCall p vs => CCall p vs
  | NFail => CFail
  | NConj p q => CConj (goal p (rest ++ nvars q)) (goal q (rest ++ nvars p))
  | NOr p q =>
    let V := inter (nvars p ++ nvars q) rest in
    CAux V (goal p V :: (fix linearize (q : nb) : list code := match q with NOr p q => goal p V :: linearize q | _ => [goal q V] end) q)
  | NGetLevel v => CGetLevel v
  | NGetChoice v => CGetChoice v
  | NCut v => CCut v
  | NSoft v => CSoft v
  end.
(** the number of CutVar *)
Definition first_new (l : list nat) : nat := fold_right (fun x m => max (S x) m) 0 l.
Fixpoint bvars (b : body) : list nat :=
  match b with BCall _ vs => vs | BFail | BCut => [] | BConj p q | BOr p q | BIf p q | BSoft p q => bvars p ++ bvars q end.
(** syntactic_sugar, syn_sugar.pl:81-90; [head]: the variables of the head *)
Definition sugar (optim : bool) (head : list nat) (b : body) : code :=
  goal (normalize_cuts optim b (first_new (head ++ bvars b))) head.
