(** catch/3 and throw/1: /repo/src/BipsPl/catch.pl, throw.pl, throw_c.c, call.pl.

    The Prolog predicates of catch.pl run on a machine with goals to do, a stack of choice
    points, and two system variables that backtracking does not restore: 7, the handler (a choice
    point), and 8, the ball. *)
Require Import List Arith Bool.
Import ListNotations.

Section Catch.
(** [St]: the state restored by backtracking (bindings; see C12, C31).  [Ball]: copies of terms
    (C14, C48), [isnb b]: b is the atom '$no_ball$'.  [Name]: predicates *)
Variables St Ball Name : Type.
Variable nb : Ball.
Variable isnb : Ball -> bool.

(** Goals.  [Prim]: a deterministic built-in.  [Cut] cuts the clause (or the argument of call/1) it
    is in.  [If c t e] is (c -> t ; e).  [Call]: call/1 of the goal that the state gives.
    [Catch f u r]: catch(Goal, Catch, Recovery), where [u b] unifies Catch with the ball b.
    [Throw f]: throw/1, or an error of a built-in; [f] copies the ball.  [Pred p]: a predicate *)
Inductive goal :=
| Prim (f : St -> option St)
| Conj (g1 g2 : goal)
| Disj (g1 g2 : goal)
| If (c t e : goal)
| Cut
| Call (f : St -> goal)
| Catch (f : St -> goal) (u : Ball -> St -> option St) (r : St -> goal)
| Throw (f : St -> Ball)
| Pred (p : Name).

Variable prog : Name -> goal.

(** What remains to be done: a goal with the choice point to which its cuts go back (the height
    of the stack), a cut, or the end of the first clause of '$catch_internal1' (catch.pl:68-73):
    the values of its variables B and Handler *)
Inductive frame := FGoal (g : goal) (cb : nat) | FCut (n : nat) | FExit (B Handler : nat).

(** Choice points: a disjunction, the second clause of '$catch_internal1' (catch.pl:82-86), the
    second clause of '$trail_handler' (catch.pl:119-121) *)
Inductive cp :=
| CAlt (s : St) (K : list frame)
| CCatch (s : St) (u : Ball -> St -> option St) (r : St -> goal) (K : list frame) (Handler : nat)
| CTrail (B : nat).

(** [Run]: state, goals, choice points, handler, ball.  [Back]: fail/0.  [Raise]: '$unwind'(b), with b in
    the variable 8.  A handler is the height of the stack with this choice point on top, 0 is LSSA *)
Inductive cfg :=
| Run (s : St) (K : list frame) (C : list cp) (h : nat) (b : Ball)
| Back (C : list cp) (h : nat) (b : Ball)
| Raise (b : Ball) (C : list cp) (h : nat)
| Stop.
Inductive event := Ans (s : St) | Uncaught (b : Ball).

(** Pl_Cut: the choice points above are removed *)
Definition lastn (n : nat) (C : list cp) : list cp := skipn (length C - n) C.

(** one step, and what can be seen of it.

    - catch (catch.pl:56-66): Handler is read, the ball is reset, the choice point of the second clause is created, it
      becomes the handler, and the goal is called
    - its end (catch.pl:68-73): '$trail_handler' if there are choice points above, else a cut
    - second clause (catch.pl:82-86 and '$catch_a_throw' 101-112): the handler is put back; fail if
      there is no ball; else unification and Recovery, or '$unwind' again.  The first clause of '$catch_a_throw'
      (abort/0) is left out: balls are not of the form '$catch_sync'(_)
    - throw (throw.pl:54-61): Raise; '$unwind' (throw.pl:66-69) and Pl_Throw_2 (throw_c.c:75-105) with pl_query_top_b = NULL:
      a message if there is no handler, else a cut; then fail
    - (c -> t ; e), disjunctions and cuts as in call.pl:196-281 *)
Definition step (c : cfg) : option event * cfg :=
  match c with
  | Stop => (None, Stop)
  | Raise b C h => if Nat.eqb h 0 then (Some (Uncaught b), Back C h b) else (None, Back (lastn h C) h b)
  | Back [] h b => (None, Stop)
  | Back (CAlt s K :: C) h b => (None, Run s K C h b)
  | Back (CTrail B :: C) h b => (None, Back C B b)
  | Back (CCatch s u r K Hd :: C) h b =>
    if isnb b then (None, Back C Hd b)
    else match u b s with
      | Some s' => (None, Run s' (FGoal (r s') (length C) :: K) C Hd nb)
      | None => (None, Raise b C Hd)
      end
  | Run s [] C h b => (Some (Ans s), Back C h b)
  | Run s (FCut n :: K) C h b => (None, Run s K (lastn n C) h b)
  | Run s (FExit B Hd :: K) C h b =>
    if Nat.ltb B (length C) then (None, Run s K (CTrail B :: C) Hd b)
    else (None, Run s K (lastn (B - 1) C) Hd b)
  | Run s (FGoal g cb :: K) C h b =>
    (None, match g with
    | Prim f => match f s with Some s' => Run s' K C h b | None => Back C h b end
    | Conj g1 g2 => Run s (FGoal g1 cb :: FGoal g2 cb :: K) C h b
    | Disj g1 g2 => Run s (FGoal g1 cb :: K) (CAlt s (FGoal g2 cb :: K) :: C) h b
    | If c t e => Run s (FGoal c (S (length C)) :: FCut (length C) :: FGoal t cb :: K) (CAlt s (FGoal e cb :: K) :: C) h b
    | Cut => Run s K (lastn cb C) h b
    | Call f => Run s (FGoal (f s) (length C) :: K) C h b
    | Catch f u r => Run s (FGoal (f s) (S (length C)) :: FExit (S (length C)) h :: K) (CCatch s u r K h :: C) (S (length C)) nb
    | Throw f => Raise (f s) C h
    | Pred p => Run s (FGoal (prog p) (length C) :: K) C h b
    end)
  end.

(** k steps: what has been seen, and the configuration *)
Fixpoint run (k : nat) (c : cfg) : list event * cfg :=
  match k with
  | O => ([], c)
  | S k => let '(e, c) := step c in let '(es, c) := run k c in (match e with Some e => e :: es | None => es end, c)
  end.

(** a query *)
Definition start (g : goal) (s : St) : cfg := Run s [FGoal g 0] [] 0 nb.
End Catch.
