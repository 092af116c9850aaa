(** C45: catch/3 and throw/1. *)
Require Import List Arith Bool Lia.
Require Import Verif.Catch_Model Verif.Catch_Spec Verif.Catch_Proofs.
Import ListNotations.

(** The machine gives the answers of the specification, in this order, and then stops, raises the uncaught exception, or
    (if the depth n was not enough) has done at least n steps.  In the specification, an exception goes to the innermost catch/3
    whose Goal it ends and whose Catch unifies with the ball, in the state in which this catch/3 was called *)
Theorem C45_catch :
  forall St Ball Name (nb : Ball) (isnb : Ball -> bool) (prog : Name -> goal St Ball Name) (g : goal St Ball Name) (s : St),
  isnb nb = true -> (forall p, no_nb _ _ _ isnb (prog p)) -> no_nb _ _ _ isnb g ->
  forall n, exists k c,
    run _ _ _ nb isnb prog k (start _ _ _ nb g s) = (map (Ans _ _) (fst (solve _ _ _ prog n g s)), c) /\
    match snd (solve _ _ _ prog n g s) with
    | Fail_ _ | Cut_ _ => c = Stop _ _ _
    | Exc _ b => exists D, c = Raise _ _ _ b D 0
    | More _ => n <= k
    end.
Proof.
  intros St Ball Name nb isnb prog g s Hnb Hp Hg n. unfold start.
  apply plays_run. apply solve_ok; auto.
Qed.

(** and no other answers *)
Theorem C45_only :
  forall St Ball Name (nb : Ball) (isnb : Ball -> bool) (prog : Name -> goal St Ball Name) (g : goal St Ball Name) (s : St),
  isnb nb = true -> (forall p, no_nb _ _ _ isnb (prog p)) -> no_nb _ _ _ isnb g ->
  forall k l c, run _ _ _ nb isnb prog k (start _ _ _ nb g s) = (map (Ans _ _) l, c) ->
  exists n l', fst (solve _ _ _ prog n g s) = l ++ l'.
Proof.
  intros St Ball Name nb isnb prog g s Hnb Hp Hg k l c R. exists (S k).
  destruct (C45_catch St Ball Name nb isnb prog g s Hnb Hp Hg (S k)) as (k2 & c2 & R2 & M).
  assert (inj : forall (x y : list St) (z : list (event St Ball)), map (Ans St Ball) y = map (Ans St Ball) x ++ z -> exists w, y = x ++ w).
  { induction x as [|a x IH]; intros y z E; [now exists y|]. destruct y as [|b y]; [discriminate|].
    cbn in E. injection E as -> E. destruct (IH _ _ E) as [w ->]. now exists w. }
  destruct (le_lt_dec k k2) as [L|L].
  - replace k2 with (k + (k2 - k)) in R2 by lia. rewrite run_plus, R in R2.
    destruct (run _ _ _ nb isnb prog (k2 - k) c) as [e c3]. injection R2 as E _. symmetry in E. exact (inj _ _ _ E).
  - replace k with (k2 + S (k - k2 - 1)) in R by lia. rewrite run_plus, R2 in R.
    assert (stop : forall j, run _ _ _ nb isnb prog j (Stop _ _ _) = ([], Stop _ _ _)).
    { induction j as [|j IH]; [reflexivity|]. cbn [run step]. now rewrite IH. }
    assert (minj : forall x y : list St, map (Ans St Ball) x = map (Ans St Ball) y -> x = y).
    { induction x as [|a x IH]; intros [|b y] E; try discriminate; [reflexivity|]. cbn in E. injection E as -> E. f_equal. auto. }
    destruct (snd (solve _ _ _ prog (S k) g s)) eqn:Est.
    + subst c2. rewrite stop, app_nil_r in R. injection R as E _. exists []. rewrite app_nil_r. exact (minj _ _ E).
    + subst c2. rewrite stop, app_nil_r in R. injection R as E _. exists []. rewrite app_nil_r. exact (minj _ _ E).
    + destruct M as [D ->]. exfalso. cbn [run step Nat.eqb] in R.
      destruct (run _ _ _ nb isnb prog (k - k2 - 1) (Back _ _ _ D 0 b)) as [e c4]. injection R as E _.
      assert (In (Uncaught St Ball b) (map (Ans St Ball) l)) as I by (rewrite <- E, in_app_iff; right; now left).
      apply in_map_iff in I. destruct I as (x & X & _). discriminate.
    + lia.
Qed.

(** an exception raised after the exit of a catch/3 does not go to it, even if its Goal can still give answers *)
Theorem C45_exited :
  forall St Ball Name (nb : Ball) (isnb : Ball -> bool) (prog : Name -> goal St Ball Name) f u r (t : St -> Ball) (s a : St) l n,
  isnb nb = true -> (forall p, no_nb _ _ _ isnb (prog p)) -> (forall s, no_nb _ _ _ isnb (f s)) -> (forall s, no_nb _ _ _ isnb (r s)) ->
  (forall s, isnb (t s) = false) ->
  fst (solve _ _ _ prog n (f s) s) = a :: l ->
  exists k D, run _ _ _ nb isnb prog k (start _ _ _ nb (Conj _ _ _ (Catch _ _ _ f u r) (Throw _ _ _ t)) s) = ([], Raise _ _ _ (t a) D 0).
Proof.
  intros St Ball Name nb isnb prog f u r t s a l n Hnb Hp Hf Hr Ht E.
  assert (Hg : no_nb _ _ _ isnb (Conj _ _ _ (Catch _ _ _ f u r) (Throw _ _ _ t))) by (cbn; auto).
  destruct (C45_catch St Ball Name nb isnb prog _ s Hnb Hp Hg n) as (k & c & R & M).
  set (g := Conj _ _ _ (Catch _ _ _ f u r) (Throw _ _ _ t)) in *.
  assert (S : solve _ _ _ prog n g s = ([], Exc _ (t a))).
  { assert (C : exists l2 s2, solve _ _ _ prog n (Catch _ _ _ f u r) s = (a :: l2, s2)).
    { assert (X : solve _ _ _ prog n (Catch _ _ _ f u r) s = let '(l, st) := opaque _ _ (solve _ _ _ prog n (f s) s) in
        match st with
        | Exc _ b => match u b s with Some s' => then_ _ _ l (opaque _ _ (solve _ _ _ prog n (r s') s')) | None => (l, st) end
        | _ => (l, st) end) by (destruct n; reflexivity).
      rewrite X. unfold opaque at 1. rewrite E. destruct (snd (solve _ _ _ prog n (f s) s)) as [| |b|]; eauto.
      destruct (u b s) as [s'|]; eauto. unfold then_. cbn [app]. eauto. }
    destruct C as (l2 & s2 & C).
    assert (Y : solve _ _ _ prog n g s = let '(l, st) := solve _ _ _ prog n (Catch _ _ _ f u r) s in
      each _ _ (solve _ _ _ prog n (Throw _ _ _ t)) l st) by (destruct n; reflexivity).
    rewrite Y, C. cbn [each]. now destruct n. }
  rewrite S in R, M. cbn [fst snd map] in R, M. destruct M as [D ->]. eauto.
Qed.

(** A small language: the state is the list of the values of X (the last one first), the balls are numbers, and '$no_ball$' *)
Definition gl := goal (list nat) (option nat) nat.
Definition isnb0 (b : option nat) := match b with None => true | _ => false end.
Definition set (n : nat) : gl := Prim _ _ _ (fun s => Some (n :: s)).
Definition when (n : nat) : gl := Prim _ _ _ (fun s => if Nat.eqb (hd 0 s) n then Some s else None).
Definition thr (n : nat) : gl := Throw _ _ _ (fun _ => Some n).
Definition pat (n : nat) (b : option nat) (s : list nat) := match b with Some m => if Nat.eqb m n then Some s else None | None => None end.
Definition any (b : option nat) (s : list nat) : option (list nat) := Some s.
Definition cat (g : gl) (n : nat) (r : gl) : gl := Catch _ _ _ (fun _ => g) (pat n) (fun _ => r).
(** predicate 0: p :- X = 1 ; X = 2 ; X = 3, throw(7).  Other predicates: loop :- loop *)
Definition prog0 (p : nat) : gl :=
  match p with
  | 0 => Disj _ _ _ (set 1) (Disj _ _ _ (set 2) (Conj _ _ _ (set 3) (thr 7)))
  | p => Pred _ _ _ p
  end.
(** catch(catch((catch(p, 8, X = 20), (X = 2 -> throw(8) ; !)), 7, X = 30), 8, X = 40): the cut stays in the goal of catch/3 *)
Definition ex1 : gl := cat (cat (Conj _ _ _ (cat (Pred _ _ _ 0) 8 (set 20)) (If _ _ _ (when 2) (thr 8) (Cut _ _ _))) 7 (set 30)) 8 (set 40).
(** catch((catch(p, 8, X = 20), true), 7, X = 30): the exception comes after backtracking in the exited catch(_, 8, _) *)
Definition ex2 : gl := cat (Conj _ _ _ (cat (Pred _ _ _ 0) 8 (set 20)) (set 10)) 7 (set 30).
Definition ex3 : gl := Disj _ _ _ (cat (Pred _ _ _ 0) 8 (set 20)) (set 5).

Lemma prog0_ok : forall p, no_nb _ _ _ isnb0 (prog0 p).
Proof. intros [|p]; cbn; repeat split; auto. Qed.

Example C45_catch_ex :
  solve _ _ _ prog0 1 ex1 [] = ([[1]], Fail_ _) /\
  solve _ _ _ prog0 1 ex2 [] = ([[10; 1]; [10; 2]; [30]], Fail_ _) /\
  solve _ _ _ prog0 1 ex3 [] = ([[1]; [2]], Exc _ (Some 7)) /\
  solve _ _ _ prog0 1 (cat (Conj _ _ _ (cat (Pred _ _ _ 0) 8 (set 20)) (If _ _ _ (when 2) (thr 8) (set 0))) 8 (set 40)) []
    = ([[0; 1]; [40]], Fail_ _) /\
  solve _ _ _ prog0 5 (Disj _ _ _ (set 5) (Pred _ _ _ 1)) [] = ([[5]], More _) /\
  fst (run _ _ _ None isnb0 prog0 40 (start _ _ _ None ex2 [])) = [Ans _ _ [10; 1]; Ans _ _ [10; 2]; Ans _ _ [30]] /\
  fst (run _ _ _ None isnb0 prog0 40 (start _ _ _ None ex3 [])) = [Ans _ _ [1]; Ans _ _ [2]; Uncaught _ _ (Some 7); Ans _ _ [5]] /\
  (exists k c, run _ _ _ None isnb0 prog0 k (start _ _ _ None ex2 []) = (map (Ans _ _) [[10; 1]; [10; 2]; [30]], c) /\ c = Stop _ _ _).
Proof.
  do 7 (split; [reflexivity|]).
  exact (C45_catch _ _ _ None isnb0 prog0 ex2 [] eq_refl prog0_ok ltac:(cbn; auto) 1).
Qed.

Example C45_only_ex : exists n l', fst (solve _ _ _ prog0 n ex2 []) = [[10; 1]; [10; 2]] ++ l'.
Proof.
  refine (C45_only _ _ _ None isnb0 prog0 ex2 [] eq_refl prog0_ok _ 20 _ (snd (run _ _ _ None isnb0 prog0 20 (start _ _ _ None ex2 []))) _).
  - cbn; auto.
  - vm_compute. reflexivity.
Qed.

(** catch(p, 9, true), throw(9) *)
Example C45_exited_ex : exists k D,
  run _ _ _ None isnb0 prog0 k (start _ _ _ None (Conj _ _ _ (cat (Pred _ _ _ 0) 9 (set 20)) (thr 9)) []) = ([], Raise _ _ _ (Some 9) D 0).
Proof.
  apply (C45_exited _ _ _ None isnb0 prog0 (fun _ => Pred _ _ _ 0) (pat 9) (fun _ => set 20) (fun _ => Some 9) [] [1] [[2]] 1);
    [reflexivity|exact prog0_ok|cbn; auto|cbn; auto|reflexivity|reflexivity].
Qed.

(** catch(throw('$no_ball$'), _, true) fails *)
Theorem C45_no_ball_refuted : exists (g : gl) (s : list nat),
  solve _ _ _ prog0 0 g s = ([s], Fail_ _) /\
  exists k, run _ _ _ None isnb0 prog0 k (start _ _ _ None g s) = ([], Stop _ _ _).
Proof.
  exists (Catch _ _ _ (fun _ => Throw _ _ _ (fun _ => None)) any (fun _ => Prim _ _ _ (fun s => Some s))), [].
  split; [reflexivity|]. exists 20. reflexivity.
Qed.

(** Without any catch/3, an exception is reported and execution goes on with the next choice point:
    (X = 1 ; throw(7) ; X = 5) has a second answer *)
Theorem C45_uncaught_refuted : exists (g : gl) (s : list nat) k,
  solve _ _ _ prog0 0 g s = ([[1]], Exc _ (Some 7)) /\
  run _ _ _ None isnb0 prog0 k (start _ _ _ None g s) = ([Ans _ _ [1]; Uncaught _ _ (Some 7); Ans _ _ [5]], Stop _ _ _).
Proof.
  exists (Disj _ _ _ (set 1) (Disj _ _ _ (thr 7) (set 5))), [], 20. split; reflexivity.
Qed.

(** The ball left in the system variable by an earlier exception (an uncaught one: see above) has no effect on
    a catch/3 called later. *)
Theorem C45_old_ball :
  forall St Ball Name (nb : Ball) (isnb : Ball -> bool) (prog : Name -> goal St Ball Name) f u r s cb K C h b b' k,
  run _ _ _ nb isnb prog (S k) (Run _ _ _ s (FGoal _ _ _ (Catch _ _ _ f u r) cb :: K) C h b) =
  run _ _ _ nb isnb prog (S k) (Run _ _ _ s (FGoal _ _ _ (Catch _ _ _ f u r) cb :: K) C h b').
Proof. reflexivity. Qed.
(** (throw(7) ; catch(fail, _, X = 1)): after the message, the second alternative fails *)
Example C45_old_ball_ex :
  run _ _ _ None isnb0 prog0 20 (start _ _ _ None
    (Disj _ _ _ (thr 7) (Catch _ _ _ (fun _ => Prim _ _ _ (fun _ => None)) any (fun _ => set 1))) []) =
  ([Uncaught _ _ (Some 7)], Stop _ _ _).
Proof. reflexivity. Qed.

Print Assumptions C45_catch.
Print Assumptions C45_old_ball.
Print Assumptions C45_only.
Print Assumptions C45_exited.
Print Assumptions C45_no_ball_refuted.
Print Assumptions C45_uncaught_refuted.
