(** C62: the translation of grammar rules keeps the meaning. *)
Require Import List Bool Arith Lia.
Require Import Verif.Dcg_Model Verif.Dcg_Spec Verif.Dcg_Proofs.
Import ListNotations.

Lemma pre_start : Pre 0 1 start.
Proof.
  split; [cbn; lia|]. split; [cbn; lia|]. split; [intros x ts w []|]. intros W J x y. exists (fun v => if v =? 0 then x else y).
  split; [intros a ts b []|]. split; reflexivity.
Qed.
Lemma sat_nil : forall (W : Type) (J : interp W) r, sat J [] r.
Proof. intros W J r x ts w []. Qed.
(** the body alone *)
Lemma body_top : forall d, match first_err d with
  | Some e => trans_body d = Err e
  | None => exists c, trans_body d = Ok c /\ (then_ok d = true -> forall (W : Type) (J : interp W) x y, clause_means J c x y <-> means J d x y)
  end.
Proof.
  intros d. pose proof (plain_ok d 0 1 start (proj1 (on_stack_ok d)) pre_start) as Q. unfold trans_body. destruct (first_err d) as [e|]; [exact Q|].
  destruct Q as (gs & s' & e & E & (A1 & A2 & A3 & A4 & A5) & A6). eexists. split; [exact E|]. intros K W J x y. unfold clause_means. cbn [fst snd].
  assert (HF : forall r, sat J (bl s') r <-> True /\ sate J e r). { intros r. split; [intros Q; split; [exact Logic.I|apply A1; exact Q]|intros (_ & Q); apply A1; split; [apply sat_nil|exact Q]]. }
  assert (ST : stable (nx start) (nx s') (fun _ : nat -> W => True)) by (intros r r' _ _; exact Logic.I).
  split.
  - intros (r & Q1 & <- & <- & Q2). apply all_conj in Q2. apply (p_S _ _ _ _ _ _ _ _ _ _ _ A5 K W J (sat J (bl s')) _ HF ST r Q1 Q2).
  - intros M. destruct (p_C _ _ _ _ _ _ _ _ _ _ _ A5 K W J (sat J (bl s')) _ HF ST (fun v => if v =? 0 then x else y) M) as (r' & O & Q1 & Q2).
    assert (F' : sat J (bl s') r') by (apply HF; auto). exists r'. split; [exact F'|]. split; [apply (O 0); cbn; lia|]. split; [apply (O 1); cbn; lia|]. apply all_conj. apply Q2; auto.
Qed.
Lemma rule_top : forall push d, match first_err d with
  | Some e => trans_rule push d = Err e
  | None => exists c, trans_rule push d = Ok c /\ (then_ok d = true -> forall (W : Type) (J : interp W) x y, clause_means J c x y <-> rule_means J push d x y)
  end.
Proof.
  intros [|t ts] d.
  - pose proof (body_top d) as Q. unfold trans_body in Q. cbn [trans_rule]. destruct (first_err d) as [e|]; [exact Q|]. destruct Q as (c & E & Q). exists c. split; [exact E|].
    intros K W J x y. rewrite (Q K W J x y). unfold rule_means. cbn [consn fold_right]. split; [intros M; exists y; auto|intros (z & M & ->); exact M].
  - assert (P : Pre 0 2 (St 3 [] true)) by (apply (pre_new 0 1 start true pre_start)).
    pose proof (proj1 (on_stack_ok d) true 0 2 _ P) as Q. unfold trans_rule, new_var, start. cbn [nx bl fl]. destruct (first_err d) as [e|]; [rewrite Q; reflexivity|].
    destruct Q as (gs & s1 & e & E & (A1 & A2 & A3 & A4 & A5)). rewrite E. cbn [bind fst snd]. cbn [nx bl fl] in *. pose proof (p_n _ _ _ _ _ _ _ _ _ _ _ A5) as N1.
    set (L := t :: ts) in *.
    assert (END : forall gs2 s2, term_list L 1 2 s1 = Ok (gs2, s2) ->
      (forall (W : Type) (J : interp W), exists R : (nat -> W) -> Prop, (forall r, sat J (bl s2) r <-> R r /\ sate J e r) /\ stable 3 (nx s1) R /\ (forall r, sat J (bl s2) r -> all J (sat J (bl s2)) gs2 r -> r 1 = consn J L (r 2)) /\
         (forall r, r 1 = consn J L (r 2) -> R r /\ all J (sat J (bl s2)) gs2 r)) ->
      exists c, bind (term_list L 1 2 s1) (fun r2 => Ok (conj (gs ++ fst r2), snd r2)) = Ok c /\ (then_ok d = true -> forall (W : Type) (J : interp W) x y, clause_means J c x y <-> rule_means J L d x y)).
    { intros gs2 s2 E2 H. rewrite E2. eexists. split; [reflexivity|]. intros K W J x y. destruct (H W J) as (R & HF & ST & HS & HC). unfold clause_means, rule_means. cbn [fst snd]. split.
      - intros (r & Q1 & <- & <- & Q2). apply all_conj in Q2. apply Forall_app in Q2. destruct Q2 as (Q2 & Q3). exists (r 2). split; [|apply HS; assumption].
        apply (p_S _ _ _ _ _ _ _ _ _ _ _ A5 K W J (sat J (bl s2)) R HF ST r Q1 Q2).
      - intros (z & M & Ey). destruct (p_C _ _ _ _ _ _ _ _ _ _ _ A5 K W J (sat J (bl s2)) R HF ST (fun v => if v =? 0 then x else if v =? 1 then y else z) M) as (r' & O & Q1 & Q2).
        assert (O0 : r' 0 = x) by (apply (O 0); lia). assert (O1 : r' 1 = y) by (apply (O 1); lia). assert (O2 : r' 2 = z) by (apply (O 2); lia).
        destruct (HC r') as (HR & HG); [rewrite O1, O2; exact Ey|]. assert (F' : sat J (bl s2) r') by (apply HF; auto). exists r'. split; [exact F'|]. split; [exact O0|]. split; [exact O1|].
        apply all_conj. apply Forall_app. split; [apply Q2; auto|exact HG]. }
    assert (HA : forall (W : Type) (J : interp W) r, sat J (bl s1) r <-> sate J e r). { intros W J r. rewrite (A1 W J r). split; [intros (_ & Q); exact Q|intros Q; split; [apply sat_nil|exact Q]]. }
    unfold term_list in *. destruct (fl s1) eqn:Ef.
    + assert (I12 : Ind (bl s1) 1 2).
      { intros W J x y. destruct (ind_after _ _ _ 0 1 _ _ 2 _ _ _ [] (bl s1) Nat.lt_0_2 Nat.lt_1_2 A5 A1 (proj2 (proj2 (proj2 pre_start))) (fun x ts w H => match H with end) W J y x) as (r & Q1 & Q2 & Q3). exists r. auto. }
      destruct (unify_ok 1 L 2 s1 I12) as (s2 & x & U1 & U2 & U3 & U4 & U5 & U6 & U7); [lia|lia|exact A2|]. rewrite U1 in *. cbn [bind] in *. apply (END [] s2 eq_refl). intros W J. exists (fun r => r 1 = consn J L (r 2)).
      split; [intros r; rewrite (U5 W J r), sate_one, HA; tauto|]. split; [intros r r' O Q; rewrite (O 1), (O 2) by lia; exact Q|]. split; [intros r Q _; apply (U5 W J r) in Q; apply (proj1 (sate_one W J 1 L 2 r)); apply Q|].
      intros r Q. split; [exact Q|constructor].
    + apply (END _ _ eq_refl). intros W J. exists (fun _ => True). cbn [bl set_fl]. split; [intros r; rewrite HA; tauto|]. split; [intros r r' _ _; exact Logic.I|].
      split; [intros r _ Q; apply (Forall_inv Q)|]. intros r Q. split; [exact Logic.I|]. constructor; [exact Q|constructor].
Qed.

(** the first error is the one of the body; otherwise there is a clause: the unifications made meanwhile (Pl_Unify, whose result
    is not looked at) never meet two lists with elements, and never make a cyclic list *)
Theorem C62_total : forall push d, match first_err d with Some e => trans_rule push d = Err e | None => exists c, trans_rule push d = Ok c end.
Proof. intros push d. pose proof (rule_top push d) as Q. destruct (first_err d); [exact Q|]. destruct Q as (c & E & _). exists c. exact E. Qed.
(** the clause relates the two lists as the rule does, for all relations of the non-terminals *)
Theorem C62_rule : forall push d c, then_ok d = true -> trans_rule push d = Ok c ->
  forall (W : Type) (J : interp W) x y, clause_means J c x y <-> rule_means J push d x y.
Proof.
  intros push d c K E. pose proof (rule_top push d) as Q. destruct (first_err d); [rewrite Q in E; discriminate E|]. destruct Q as (c' & E' & Q). rewrite E' in E. injection E as <-. apply Q. exact K.
Qed.
Theorem C62_body : forall d c, then_ok d = true -> trans_body d = Ok c ->
  forall (W : Type) (J : interp W) x y, clause_means J c x y <-> means J d x y.
Proof.
  intros d c K E. pose proof (body_top d) as Q. destruct (first_err d); [rewrite Q in E; discriminate E|]. destruct Q as (c' & E' & Q). rewrite E' in E. injection E as <-. apply Q. exact K.
Qed.

(** a, [7] --> [1, 2], \+ [3], ( b -> [4], c ; !, {g} ). *)
Definition body0 : dcg := DComma (DTerm 1 [2]) (DComma (DNeg (DTerm 3 [])) (DOr (DIf false (DNt 0) (DComma (DTerm 4 []) (DNt 1))) (DComma DCut (DBrace 5)))).
Example C62_rule_ex : then_ok body0 = true /\ trans_rule [7] body0 =
  Ok (GAnd (GNeg 5 6 (GEq 3 [3] 5)) (GAnd (GOr (GIf false 7 9 (GNt 0 4 7) (GAnd (GEq 7 [4] 8) (GNt 1 8 6))) (GAnd GCut (GAnd (GGoal 5) (GEq 10 [] 9)))) (GEq 1 [7] 2)),
      St 11 [(0, ([1; 2], 3)); (4, ([], 3)); (6, ([], 2)); (10, ([], 3)); (9, ([], 2))] true).
Proof. split; reflexivity. Qed.
Definition J0 : interp (list nat) := Interp _ cons (fun p x y => match p with 0 => x = 8 :: y | _ => x = y end) (fun _ _ _ => False) (fun _ => True).
(** with b --> [8] and c --> []: from [1, 2, 8, 4, 9] to [7, 9] *)
Example C62_rule_ex2 : rule_means J0 [7] body0 [1; 2; 8; 4; 9] [7; 9] /\ ~ rule_means J0 [7] body0 [1; 2; 3; 8; 4; 9] [7; 9].
Proof.
  split.
  - exists [9]. split; [|reflexivity]. exists [8; 4; 9]. split; [reflexivity|]. exists [8; 4; 9]. split; [split; [intros (z & Q); discriminate Q|reflexivity]|]. left. exists [4; 9]. split; [reflexivity|]. exists [9]. split; reflexivity.
  - intros (z & (z1 & E1 & z2 & (Q & _) & _) & _). apply Q. cbn in E1. injection E1 as <-. exists [8; 4; 9]. reflexivity.
Qed.
Example C62_total_ex : trans_rule [] (DComma (DNt 0) (DOr (DErr EList) (DErr EInst))) = Err EList /\ trans_rule [1] (DComma (DVar 3) (DTerm 1 [])) = Ok (GPhr 3 0 3, St 4 [(3, ([1], 2)); (1, ([1], 2))] true).
Proof. split; reflexivity. Qed.

(** without [then_ok]: everything holds *)
Definition J1 : interp (list nat) := Interp _ cons (fun _ _ _ => True) (fun _ _ _ => True) (fun _ => True).
(** a --> ( {g} -> [] ; c ) becomes a(S0, S) :- ( g, S0 = S -> true ; c(S0, S) ): when the list after is given and differs from the
    list before, c is run although g holds *)
Theorem C62_then_refuted : exists d c x y, trans_rule [] d = Ok c /\ clause_means J1 c x y /\ ~ rule_means J1 [] d x y.
Proof.
  exists (DOr (DIf false (DBrace 0) DNil) (DNt 0)).
  exists (GOr (GIf false 3 4 (GAnd (GGoal 0) (GEq 0 [] 3)) GTrue) (GNt 0 0 4), St 5 [(3, ([], 2)); (2, ([], 1)); (4, ([], 1))] true). exists [1], []. split; [reflexivity|]. split.
  - exists (fun v => if v =? 0 then [1] else []). split; [intros x ts w [Q|[Q|[Q|[]]]]; injection Q as <- <- <-; reflexivity|]. split; [reflexivity|]. split; [reflexivity|].
    right. split; [|exact Logic.I]. intros (r' & O & S1 & (_ & Q)). cbn in Q. rewrite (O 0) in Q by (left; lia).
    assert (E3 : r' 3 = r' 2) by (apply (S1 3 [] 2); left; reflexivity). rewrite E3, (O 2) in Q by (left; lia). discriminate Q.
  - intros (z & [(w & (_ & Q1) & Q2)|(Q & _)] & Q3).
    + cbn in Q1, Q2, Q3. subst. discriminate Q3.
    + apply Q. exists [1]. split; [exact Logic.I|reflexivity].
Qed.
(** a --> ( [] -> [] ; c ) becomes a(S0, S) :- ( S0 = S, (true -> true) ; c(S0, S) ): the if-then-else is lost *)
Theorem C62_if_lost_refuted : exists d c x y, trans_rule [] d = Ok c /\ clause_means J1 c x y /\ ~ rule_means J1 [] d x y.
Proof.
  exists (DOr (DIf false DNil DNil) (DNt 0)).
  exists (GOr (GAnd (GEq 2 [] 1) (GIf false 3 4 GTrue GTrue)) (GNt 0 0 4), St 5 [(3, ([], 0)); (2, ([], 0)); (4, ([], 1))] true). exists [1], []. split; [reflexivity|]. split.
  - exists (fun v => if (v =? 0) || (v =? 2) || (v =? 3) then [1] else []). split; [intros x ts w [Q|[Q|[Q|[]]]]; injection Q as <- <- <-; reflexivity|]. split; [reflexivity|]. split; [reflexivity|].
    right. exact Logic.I.
  - intros (z & [(w & Q1 & Q2)|(Q & _)] & Q3).
    + cbn in Q1, Q2, Q3. subst. discriminate Q3.
    + apply Q. exists [1]. reflexivity.
Qed.
Definition J2 : interp (list nat) := Interp _ cons (fun p _ _ => p <> 2) (fun _ _ _ => True) (fun _ => True).
(** a --> ( [], (b -> c) ; d ) becomes a(S0, S) :- ( b(S0, S1) -> c(S1, S) ; d(S0, S) ): an if-then-else is made *)
Theorem C62_if_made_refuted : exists d c x y, trans_rule [] d = Ok c /\ ~ clause_means J2 c x y /\ rule_means J2 [] d x y.
Proof.
  exists (DOr (DComma DNil (DIf false (DNt 1) (DNt 2))) (DNt 0)).
  exists (GOr (GIf false 4 5 (GNt 1 3 4) (GNt 2 4 2)) (GNt 0 0 5), St 6 [(3, ([], 0)); (2, ([], 1)); (5, ([], 1))] true). exists [], []. split; [reflexivity|]. split.
  - intros (r & S1 & _ & _ & [(_ & Q)|(Q & _)]); [apply Q; reflexivity|]. apply Q. exists r. split; [apply outside_refl|]. split; [exact S1|]. cbn. discriminate.
  - exists []. split; [|reflexivity]. right. cbn. discriminate.
Qed.
(** * Cut
    The lists with which the head of the clause can be unified. *)
Definition head_of {W : Type} (J : interp W) (c : goal * st) (x y : W) : Prop := exists r, sat J (bl (snd c)) r /\ r 0 = x /\ r 1 = y.
(** what comes after a cut does not make the head more special: the head of  d1, !, d2  is the head of  d1, nt.
    So the cut is reached whatever the list after is *)
Theorem C62_cut : forall d1 d2 p c c', same_var false d2 = false -> trans_rule [] (DComma d1 (DComma DCut d2)) = Ok c -> trans_rule [] (DComma d1 (DNt p)) = Ok c' ->
  forall (W : Type) (J : interp W) x y, head_of J c x y <-> head_of J c' x y.
Proof.
  intros d1 d2 p c c' SV E E'. cbn [trans_rule] in E, E'. unfold plain_body in E, E'. cbn [on_stack] in E, E'. unfold new_var at 1 in E. unfold new_var at 1 in E'. cbn [start nx bl fl] in E, E'.
  assert (P : Pre 0 2 (St 3 [] true)) by (apply (pre_new 0 1 start true pre_start)). pose proof (proj1 (on_stack_ok d1) true 0 2 _ P) as Q.
  destruct (first_err d1) as [er|]; [rewrite Q in E; discriminate E|]. destruct Q as (g1 & s1 & e1 & E1 & (A1 & A2 & A3 & A4 & A5)). rewrite E1 in E, E'. cbn [bind fst snd] in E, E'. cbn [nx bl fl] in *.
  injection E' as <-. pose proof (p_n _ _ _ _ _ _ _ _ _ _ _ A5) as N1.
  assert (I21 : Ind (bl s1) 2 1) by (apply (ind_after _ _ _ 0 1 _ _ 2 _ _ _ [] (bl s1) Nat.lt_0_2 Nat.lt_1_2 A5 A1 (proj2 (proj2 (proj2 pre_start))) (fun x ts w H => match H with end))).
  unfold in_is_out, new_var in E. set (w := nx s1) in *. set (s2 := set_fl (St (S w) (bl s1) (fl s1)) false) in *.
  assert (I2w : Ind (bl s2) 2 w) by (apply (ind_new (bl s1) 2 1 w I21 A2); lia).
  assert (B2 : below (S w) (bl s2)) by (apply (below_mono w); [exact A2|lia]).
  destruct (unify_ok 2 [] w s2 I2w) as (s3 & x3 & U1 & U2 & U3 & U4 & U5 & U6 & U7); [cbn; lia|cbn; lia|exact B2|]. rewrite U1 in E. cbn [bind fst snd] in E. cbn [nx s2 set_fl] in U2, U6. cbn [fl bl s2 set_fl] in U3, U4, U5.
  assert (P3 : Pre w 1 s3).
  { split; [lia|]. split; [lia|]. split; [rewrite U2; exact U6|]. intros W J x y. destruct (I21 W J x y) as (r & Q1 & Q2 & Q3). exists (upd r w x). split; [|split; [apply upd_eq|rewrite upd_neq by lia; exact Q3]].
    apply U5. split; [apply (sat_stable W J (bl s1) w (S w) A2 r); [apply outside_upd; lia|exact Q1]|]. apply sate_one. rewrite upd_eq, upd_neq by lia. exact Q2. }
  pose proof (proj1 (on_stack_ok d2) false w 1 s3 P3) as Q. destruct (first_err d2) as [er|]; [rewrite Q in E; discriminate E|]. destruct Q as (g2 & s4 & e2 & E2 & (C1 & C2 & C3 & C4 & C5)). rewrite E2 in E. cbn [bind fst snd] in E. injection E as <-.
  rewrite SV, U3, U2 in C5. intros W J x y. unfold head_of. cbn [snd bl set_fl]. split.
  - intros (r & Q1 & Q2 & Q3). exists r. split; [|auto]. apply C1 in Q1. destruct Q1 as (Q1 & _). apply U5 in Q1. apply Q1.
  - intros (r & Q1 & Q2 & Q3). pose proof (p_n _ _ _ _ _ _ _ _ _ _ _ C5) as N2.
    destruct (p_EF _ _ _ _ _ _ _ _ _ _ _ C5 eq_refl W J (upd r w (r 2))) as (r' & O & S2); [discriminate|]. exists r'. split; [|rewrite (O 0), (O 1), !upd_neq by lia; auto]. apply C1. split; [|exact S2].
    assert (B3 : below (S w) (bl s3)) by exact U6. apply (sat_stable W J (bl s3) (S w) (nx s4) B3 (upd r w (r 2))); [exact O|]. apply U5. split; [apply (sat_stable W J (bl s1) w (S w) A2 r); [apply outside_upd; lia|exact Q1]|].
    apply sate_one. rewrite upd_eq, upd_neq by lia. reflexivity.
Qed.
(** a --> [1], !, [2].  becomes  a([1|S1], S) :- !, S1 = [2|S]. *)
Example C62_cut_ex : trans_rule [] (DComma (DTerm 1 []) (DComma DCut (DTerm 2 []))) = Ok (GAnd GCut (GEq 3 [2] 1), St 4 [(0, ([1], 2)); (3, ([], 2))] true) /\
  trans_rule [] (DComma (DTerm 1 []) (DNt 0)) = Ok (GNt 0 2 1, St 3 [(0, ([1], 2))] true).
Proof. split; reflexivity. Qed.
(** a --> !, [].  becomes  a(S, S) :- !.  and the cut is not reached with two different lists *)
Theorem C62_cut_refuted : exists d1 d2 p c c' x y, trans_rule [] (DComma d1 (DComma DCut d2)) = Ok c /\ trans_rule [] (DComma d1 (DNt p)) = Ok c' /\ head_of J1 c' x y /\ ~ head_of J1 c x y.
Proof.
  exists DNil, DNil, 0, (GCut, St 4 [(2, ([], 0)); (3, ([], 0)); (1, ([], 0))] true), (GNt 0 2 1, St 3 [(2, ([], 0))] true), [1], []. split; [reflexivity|]. split; [reflexivity|]. split.
  - exists (fun v => if v =? 1 then [] else [1]). split; [intros x ts w [Q|[]]; injection Q as <- <- <-; reflexivity|]. split; reflexivity.
  - intros (r & Q1 & Q2 & Q3). assert (Q4 : r 1 = r 0) by (apply (Q1 1 [] 0); right; right; left; reflexivity). rewrite Q2, Q3 in Q4. discriminate Q4.
Qed.
(** a, [1] --> !, [2].  becomes  a(S0, [1|S]) :- !, S0 = [2|S].  and the cut is not reached when the list after does not start with 1 *)
Theorem C62_cut_push_refuted : exists push d2 p c c' x y, same_var false d2 = false /\ trans_rule push (DComma DCut d2) = Ok c /\ trans_rule push (DNt p) = Ok c' /\ head_of J1 c' x y /\ ~ head_of J1 c x y.
Proof.
  exists [1], (DTerm 2 []), 0, (GAnd GCut (GEq 3 [2] 2), St 4 [(3, ([], 0)); (1, ([1], 2))] true), (GAnd (GNt 0 0 2) (GEq 1 [1] 2), St 3 [] true), [], []. split; [reflexivity|]. split; [reflexivity|]. split; [reflexivity|]. split.
  - exists (fun _ => []). split; [intros x ts w []|]. split; reflexivity.
  - intros (r & Q1 & Q2 & Q3). assert (Q4 : r 1 = consn J1 [1] (r 2)) by (apply (Q1 1 [1] 2); right; left; reflexivity). rewrite Q3 in Q4. discriminate Q4.
Qed.

Print Assumptions C62_total.
Print Assumptions C62_rule.
Print Assumptions C62_body.
Print Assumptions C62_then_refuted.
Print Assumptions C62_if_lost_refuted.
Print Assumptions C62_if_made_refuted.
Print Assumptions C62_cut.
Print Assumptions C62_cut_refuted.
Print Assumptions C62_cut_push_refuted.
