(** C63: what a body means, and how the code runs.

    [St]: what the goals of the user change (the bindings).  A goal of the user gives a finite list of answers. *)
Require Import List Bool Arith.
Require Import Verif.Sugar_Model.
Import ListNotations.

Section Spec.
Variable St : Type.
Variable D : nat -> list nat -> St -> list St.

(** * Meaning of a body: its answers in order, and whether a cut has been executed *)
Definition answers : Type := (list St * bool)%type.
Fixpoint each (xs : list St) (cut : bool) (f : St -> answers) : answers :=
  match xs with
  | [] => ([], cut)
  | x :: xs => let (l, c) := f x in if c then (l, true) else let (l', c') := each xs cut f in (l ++ l', c')
  end.
Fixpoint sem (b : body) (s : St) : answers :=
  match b with
  | BCall p vs => (D p vs s, false)
  | BFail => ([], false)
  | BCut => ([s], true)
  | BConj p q => each (fst (sem p s)) (snd (sem p s)) (sem q)
  | BIf p q => match fst (sem p s) with [] => ([], false) | x :: _ => sem q x end
  | BSoft p q => each (fst (sem p s)) false (sem q)
  | BOr p r =>
    match p with
    | BIf p q => match fst (sem p s) with [] => sem r s | x :: _ => sem q x end
    | BSoft p q => match fst (sem p s) with [] => sem r s | xs => each xs false (sem q) end
    | _ => let (l, c) := sem p s in if c then (l, true) else let (l', c') := sem r s in (l ++ l', c')
    end
  end.

(** * The machine
    A frame is the environment of a clause (the values of its cut variables), the height of the stack of choice points when
    its predicate was entered, and the goals which remain.  A choice point is a list of alternatives. *)
Definition env : Type := nat -> option nat.
Definition frame : Type := (env * nat * list code)%type.
Definition stack : Type := list (list (St * list frame)).
Definition set (r : env) (v n : nat) : env := fun x => if x =? v then Some n else r x.
Definition pass (vs : list nat) (r : env) : env := fun x => if mem x vs then r x else None.
(** the lowest n choice points *)
Definition bottom (n : nat) (K : stack) : stack := skipn (length K - n) K.
(** the choice point number n (from 1, the lowest) is left without alternatives *)
Definition kill (n : nat) (K : stack) : stack := firstn (length K - n) K ++ [] :: skipn (length K - n + 1) K.
(** [exec fs s K out]: the answers from here on; [back]: after backtracking *)
Inductive exec : list frame -> St -> stack -> list St -> Prop :=
| e_answer : forall s K out, back K out -> exec [] s K (s :: out)
| e_return : forall r l fs s K out, exec fs s K out -> exec ((r, l, []) :: fs) s K out
| e_call : forall r l p vs gs fs s K out, back (map (fun s' => (s', (r, l, gs) :: fs)) (D p vs s) :: K) out -> exec ((r, l, CCall p vs :: gs) :: fs) s K out
| e_fail : forall r l gs fs s K out, back K out -> exec ((r, l, CFail :: gs) :: fs) s K out
| e_conj : forall r l a b gs fs s K out, exec ((r, l, a :: b :: gs) :: fs) s K out -> exec ((r, l, CConj a b :: gs) :: fs) s K out
| e_aux : forall r l vs cls gs fs s K out,
    back (map (fun c => (s, (pass vs r, length K, [c]) :: (r, l, gs) :: fs)) cls :: K) out -> exec ((r, l, CAux vs cls :: gs) :: fs) s K out
| e_level : forall r l v gs fs s K out, exec ((set r v l, l, gs) :: fs) s K out -> exec ((r, l, CGetLevel v :: gs) :: fs) s K out
| e_choice : forall r l v gs fs s K out, exec ((set r v (length K), l, gs) :: fs) s K out -> exec ((r, l, CGetChoice v :: gs) :: fs) s K out
| e_cut : forall r l v n gs fs s K out, r v = Some n -> n <= length K -> exec ((r, l, gs) :: fs) s (bottom n K) out -> exec ((r, l, CCut v :: gs) :: fs) s K out
| e_soft : forall r l v n gs fs s K out, r v = Some n -> 0 < n <= length K -> exec ((r, l, gs) :: fs) s (kill n K) out -> exec ((r, l, CSoft v :: gs) :: fs) s K out
with back : stack -> list St -> Prop :=
| b_end : back [] []
| b_pop : forall K out, back K out -> back ([] :: K) out
| b_last : forall s fs K out, exec fs s K out -> back ([(s, fs)] :: K) out
| b_next : forall s fs a l K out, exec fs s ((a :: l) :: K) out -> back (((s, fs) :: a :: l) :: K) out.

(** * Predicates and continuations *)
Fixpoint psem (bs : list body) (s : St) : list St :=
  match bs with [] => [] | b :: bs => let (l, c) := sem b s in if c then l else l ++ psem bs s end.
Definition no_env : env := fun _ => None.
(** [k x]: the answers of what remains to be done after the clause; no cut of the clauses which called it *)
Definition runs (fs : list frame) (k : St -> list St) : Prop := forall x K out, back K out -> exec fs x K (k x ++ out).
End Spec.

(** * The arguments of the auxiliary predicates: exactly the variables which occur in the alternatives and outside *)
Fixpoint cvars (c : code) : list nat :=
  match c with
  | CCall _ vs => vs
  | CFail => []
  | CConj a b => cvars a ++ cvars b
  | CAux _ cls => flat_map cvars cls
  | CGetLevel v | CGetChoice v | CCut v | CSoft v => [v]
  end.
Fixpoint scoped (out : list nat) (c : code) : Prop :=
  match c with
  | CConj a b => scoped (out ++ cvars b) a /\ scoped (out ++ cvars a) b
  | CAux vs cls => NoDup vs /\ (forall v, In v vs <-> In v (flat_map cvars cls) /\ In v out) /\
    (fix all (cls : list code) : Prop := match cls with [] => True | c :: cls => scoped vs c /\ all cls end) cls
  | _ => True
  end.
