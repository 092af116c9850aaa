(** The machine of Catch_Model computes the answers of Catch_Spec. *)
Require Import List Arith Bool Lia.
Require Import Verif.Catch_Model Verif.Catch_Spec.
Import ListNotations.

Section Proofs.
Variables St Ball Name : Type.
Variable nb : Ball.
Variable isnb : Ball -> bool.
Variable prog : Name -> goal St Ball Name.
Hypothesis Hnb : isnb nb = true.
Hypothesis Hprog : forall p, no_nb _ _ _ isnb (prog p).

Notation goal := (goal St Ball Name).
Notation cp := (cp St Ball Name).
Notation frame := (frame St Ball Name).
Notation cfg := (cfg St Ball Name).
Notation step := (step St Ball Name nb isnb prog).
Notation lastn := (lastn St Ball Name).
Notation status := (status Ball).
Notation FGoal := (FGoal St Ball Name).
Notation FCut := (FCut St Ball Name).
Notation FExit := (FExit St Ball Name).
Notation CAlt := (CAlt St Ball Name).
Notation CCatch := (CCatch St Ball Name).
Notation CTrail := (CTrail St Ball Name).
Notation Run := (Run St Ball Name).
Notation Back := (Back St Ball Name).
Notation Raise := (Raise St Ball Name).
Notation solve := (solve St Ball Name prog).
Notation each := (each St Ball).
Notation Fail_ := (Fail_ Ball).
Notation Cut_ := (Cut_ Ball).
Notation Exc := (Exc Ball).
Notation More := (More Ball).

Lemma lastn_len n (C : list cp) : n <= length C -> length (lastn n C) = n.
Proof. intros; unfold Catch_Model.lastn. rewrite skipn_length. lia. Qed.
Lemma lastn_all (C : list cp) : lastn (length C) C = C.
Proof. unfold Catch_Model.lastn. now rewrite Nat.sub_diag. Qed.
Lemma lastn_cons n x (C : list cp) : n <= length C -> lastn n (x :: C) = lastn n C.
Proof. intros; unfold Catch_Model.lastn. cbn [length]. now replace (S (length C) - n) with (S (length C - n)) by lia. Qed.
Lemma skipn_plus : forall a b (C : list cp), skipn a (skipn b C) = skipn (b + a) C.
Proof.
  intros a b; induction b as [|b IH]; intros C; [reflexivity|].
  destruct C; [now rewrite !skipn_nil|]. cbn [skipn Nat.add]. apply IH.
Qed.
Lemma lastn_lastn n m (C : list cp) : n <= m -> m <= length C -> lastn n (lastn m C) = lastn n C.
Proof.
  intros H1 H2. unfold Catch_Model.lastn at 1. rewrite (lastn_len m C H2).
  unfold Catch_Model.lastn. rewrite skipn_plus. f_equal. lia.
Qed.
Lemma lastn_eq n m (C D : list cp) : n <= m -> m <= length C -> m <= length D ->
  lastn m C = lastn m D -> lastn n C = lastn n D.
Proof. intros H1 H2 H3 E. rewrite <- (lastn_lastn n m C), <- (lastn_lastn n m D), E; auto. Qed.

(** steps in which nothing is seen *)
Inductive silent : nat -> cfg -> cfg -> Prop :=
| si_0 c : silent 0 c c
| si_S k c c1 c2 : step c = (None, c1) -> silent k c1 c2 -> silent (S k) c c2.
Lemma si_trans k1 k2 c1 c2 c3 : silent k1 c1 c2 -> silent k2 c2 c3 -> silent (k1 + k2) c1 c3.
Proof. induction 1; intros; [easy|]. cbn. econstructor; eauto. Qed.
Lemma si_1 c c1 : step c = (None, c1) -> silent 1 c c1.
Proof. intros. econstructor; [eassumption|constructor]. Qed.

(** From c, the answers l reach the goals K, and then st.  [cb]: the height of the stack to which cuts go *)
Inductive plays (K : list frame) (C : list cp) (cb h : nat) : nat -> cfg -> list St -> status -> Prop :=
| pl_fail r c k : silent k c (Back C h nb) -> plays K C cb h r c [] Fail_
| pl_cut r c k : silent k c (Back (lastn cb C) h nb) -> plays K C cb h r c [] Cut_
| pl_exc r c k b D : silent k c (Raise b D h) -> isnb b = false -> h <= length D -> lastn h D = lastn h C ->
    plays K C cb h r c [] (Exc b)
| pl_more r c k c' : silent k c c' -> r <= k -> plays K C cb h r c [] More
| pl_ans r c k a D l st : silent k c (Run a K D h nb) -> cb <= length D -> lastn cb D = lastn cb C ->
    (length D = cb -> l = [] /\ (st = Fail_ /\ length C = cb \/ st = Cut_)) ->
    plays K C cb h (r - k) (Back D h nb) l st ->
    plays K C cb h r c (a :: l) st.

Lemma pl_pre K C cb h k c c' r l st : silent k c c' -> plays K C cb h (r - k) c' l st -> plays K C cb h r c l st.
Proof.
  intros Si P. inversion P; subst.
  - eapply pl_fail. eapply si_trans; eassumption.
  - eapply pl_cut. eapply si_trans; eassumption.
  - eapply pl_exc; [eapply si_trans; eassumption|assumption..].
  - eapply pl_more; [eapply si_trans; eassumption|]. lia.
  - eapply pl_ans; [eapply si_trans; eassumption|try assumption..].
    now replace (r - (k + k0)) with (r - k - k0) by lia.
Qed.
Lemma pl_mono K C cb h r c l st : plays K C cb h r c l st -> forall r', r' <= r -> plays K C cb h r' c l st.
Proof.
  induction 1; intros r' Hr.
  - eapply pl_fail; eassumption.
  - eapply pl_cut; eassumption.
  - eapply pl_exc; eassumption.
  - eapply pl_more; [eassumption|lia].
  - eapply pl_ans; try eassumption. apply IHplays. lia.
Qed.

(** what follows the end of the answers *)
Lemma pl_seq K C1 cb1 C cb h r c l1 st1 l2 st2 :
  plays K C1 cb1 h r c l1 st1 ->
  h <= cb -> cb <= cb1 -> cb <= length C -> cb1 <= length C1 -> lastn cb C1 = lastn cb C ->
  match st1 with
  | Catch_Spec.Fail_ _ => plays K C cb h r (Back C1 h nb) l2 st2 /\
      (length C1 = cb -> l2 = [] /\ (st2 = Fail_ /\ length C = cb \/ st2 = Cut_))
  | Catch_Spec.Cut_ _ => plays K C cb h r (Back (lastn cb1 C1) h nb) l2 st2 /\
      (cb1 = cb -> l2 = [] /\ (st2 = Fail_ /\ length C = cb \/ st2 = Cut_))
  | _ => l2 = [] /\ st2 = st1
  end ->
  plays K C cb h r c (l1 ++ l2) st2.
Proof.
  intros P Hh Hcb HC HC1 E. induction P as [r c k Si|r c k Si|r c k b D Si Hb HD E1|r c k c' Si Hr|r c k a D l st Si HD E1 Hl P IH];
    intros M.
  - destruct M as [M _]. eapply pl_pre; [exact Si|]. eapply pl_mono; [exact M|lia].
  - destruct M as [M _]. eapply pl_pre; [exact Si|]. eapply pl_mono; [exact M|lia].
  - destruct M as [-> ->]. eapply pl_exc; [exact Si|exact Hb|exact HD|].
    rewrite E1. apply (lastn_eq h cb); auto; lia.
  - destruct M as [-> ->]. eapply pl_more; eassumption.
  - cbn [app]. eapply pl_ans; [exact Si|lia| | |].
    + rewrite (lastn_eq cb cb1 D C1); auto; lia.
    + intros HL. assert (cb1 = cb) by lia. subst cb1. destruct (Hl HL) as [-> [[-> L1]| ->]]; cbn [app].
      * exact (proj2 M L1).
      * exact (proj2 M eq_refl).
    + apply IH. destruct st; try exact M; (split; [eapply pl_mono; [exact (proj1 M)|lia]|exact (proj2 M)]).
Qed.

Lemma pl_each g2 cb K C h r c l st f :
  plays (FGoal g2 cb :: K) C cb h r c l st -> h <= cb -> cb <= length C ->
  (forall s D r', r' <= r -> cb <= length D -> lastn cb D = lastn cb C ->
     plays K D cb h r' (Run s (FGoal g2 cb :: K) D h nb) (fst (f s)) (snd (f s))) ->
  plays K C cb h r c (fst (each f l st)) (snd (each f l st)).
Proof.
  intros P Hh HC. induction P as [r c k Si|r c k Si|r c k b D Si Hb HD E1|r c k c' Si Hr|r c k a D l st Si HD E1 Hl P IH];
    intros F; cbn [Catch_Spec.each fst snd].
  - eapply pl_fail; eassumption.
  - eapply pl_cut; eassumption.
  - eapply pl_exc; eassumption.
  - eapply pl_more; eassumption.
  - eapply pl_pre; [exact Si|].
    pose proof (F a D (r - k) ltac:(lia) HD E1) as G.
    assert (IH' := IH (fun s D r' (H : r' <= r - k) => F s D r' ltac:(lia))). clear IH.
    destruct (f a) as [l2 s2] eqn:Ef. cbn [fst snd] in G.
    destruct s2.
    + destruct (each f l st) as [l3 s3] eqn:Ee. cbn [fst snd] in *.
      eapply pl_seq; [exact G|lia..|exact E1|]. cbv iota. split; [exact IH'|].
      intros L. destruct (Hl L) as [-> Q]. cbn in Ee. injection Ee as <- <-. now split.
    + cbn [fst snd]. rewrite <- (app_nil_r l2). eapply pl_seq; [exact G|lia..|exact E1|]. cbv iota.
      split; [|intros; split; auto]. rewrite E1. eapply pl_cut. constructor.
    + cbn [fst snd]. rewrite <- (app_nil_r l2). eapply pl_seq; [exact G|lia..|exact E1|]. now split.
    + cbn [fst snd]. rewrite <- (app_nil_r l2). eapply pl_seq; [exact G|lia..|exact E1|]. now split.
Qed.

Lemma pl_opaque K C cb h r c R : plays K C (length C) h r c (fst R) (snd R) -> h <= cb -> cb <= length C ->
  plays K C cb h r c (fst (opaque _ _ R)) (snd (opaque _ _ R)).
Proof.
  intros P Hh HC. unfold opaque; cbn [fst snd].
  rewrite <- (app_nil_r (fst R)). eapply pl_seq; [exact P|lia..|reflexivity|].
  destruct (snd R); try (now split).
  - split; [eapply pl_fail; constructor|auto].
  - rewrite lastn_all. split; [eapply pl_fail; constructor|auto].
Qed.

(** the answers of the goal of a catch, seen from outside *)
Lemma pl_catch s u rc K C cb h r c l st l2 st2 :
  let C1 := CCatch s u rc K h :: C in
  plays (FExit (length C1) h :: K) C1 (length C1) (length C1) r c l st ->
  h <= cb -> cb <= length C ->
  match st with
  | Catch_Spec.Fail_ _ | Catch_Spec.Cut_ _ => l2 = [] /\ st2 = Fail_
  | Catch_Spec.More _ => l2 = [] /\ st2 = More
  | Catch_Spec.Exc _ b =>
    match u b s with
    | Some s' => plays K C cb h r (Run s' (FGoal (rc s') (length C) :: K) C h nb) l2 st2
    | None => l2 = [] /\ st2 = st
    end
  end ->
  plays K C cb h r c (l ++ l2) st2.
Proof.
  intros C1 P Hh HC. assert (LC : length C1 = S (length C)) by reflexivity.
  assert (B0 : silent 1 (Back C1 (length C1) nb) (Back C h nb)).
  { apply si_1. unfold C1. cbn [Catch_Model.step]. now rewrite Hnb. }
  induction P as [r c k Si|r c k Si|r c k b D Si Hb HD E1|r c k c' Si Hr|r c k a D l st Si HD E1 Hl P IH]; intros M.
  - destruct M as [-> ->]. eapply pl_fail. eapply si_trans; [exact Si|exact B0].
  - destruct M as [-> ->]. eapply pl_fail. eapply si_trans; [exact Si|]. rewrite lastn_all. exact B0.
  - rewrite lastn_all in E1. cbn [app].
    assert (S1 : silent (k + 1) c (Back C1 (length C1) b)).
    { eapply si_trans; [exact Si|]. apply si_1. cbn [Catch_Model.step]. rewrite LC. cbn [Nat.eqb].
      rewrite <- LC, E1. reflexivity. }
    destruct (u b s) as [s'|] eqn:U.
    + eapply pl_pre; [|eapply pl_mono; [exact M|apply Nat.le_sub_l]].
      eapply si_trans; [exact S1|]. apply si_1. unfold C1. cbn [Catch_Model.step]. now rewrite Hb, U.
    + destruct M as [-> ->]. eapply pl_exc; [|exact Hb| |reflexivity]; [|lia].
      eapply si_trans; [exact S1|]. apply si_1. unfold C1. cbn [Catch_Model.step]. now rewrite Hb, U.
  - destruct M as [-> ->]. eapply pl_more; eassumption.
  - cbn [app]. rewrite lastn_all in E1. destruct (Nat.ltb (length C1) (length D)) eqn:L.
    + apply Nat.ltb_lt in L.
      assert (ED : lastn cb D = lastn cb C).
      { transitivity (lastn cb C1); [|unfold C1; now apply lastn_cons].
        apply (lastn_eq cb (length C1)); try lia. now rewrite lastn_all. }
      eapply pl_ans with (k := k + 1) (D := CTrail (length C1) :: D).
      * eapply si_trans; [exact Si|]. apply si_1. cbn [Catch_Model.step].
        apply Nat.ltb_lt in L. now rewrite L.
      * cbn [length]. lia.
      * rewrite lastn_cons by lia. exact ED.
      * cbn [length]. lia.
      * eapply pl_pre with (k := 1); [apply si_1; reflexivity|].
        eapply pl_mono with (r := r - k); [|lia]. apply IH.
        destruct st; try exact M. destruct (u b s); [|exact M]. eapply pl_mono; [exact M|lia].
    + apply Nat.ltb_ge in L. assert (LD : length D = length C1) by lia.
      assert (D = C1) by (rewrite <- E1, <- LD; symmetry; apply lastn_all). subst D.
      destruct (Hl eq_refl) as [-> Q]. assert (l2 = [] /\ st2 = Fail_) as [-> ->].
      { destruct Q as [[-> _]| ->]; exact M. }
      cbn [app]. eapply pl_ans with (k := k + 1) (D := C).
      * eapply si_trans; [exact Si|]. apply si_1. cbn [Catch_Model.step].
        rewrite Nat.ltb_irrefl. do 3 f_equal. rewrite LC.
        replace (S (length C) - 1) with (length C) by lia. unfold C1. rewrite lastn_cons by lia. now rewrite lastn_all.
      * exact HC.
      * reflexivity.
      * auto.
      * eapply pl_fail. constructor.
Qed.

Notation no_nb := (no_nb St Ball Name isnb).
Ltac one := eapply pl_pre with (k := 1); [apply si_1; reflexivity|].

Lemma solve_ok : forall n g s K C cb h r, no_nb g -> h <= cb -> cb <= length C -> r <= n ->
  plays K C cb h r (Run s (FGoal g cb :: K) C h nb) (fst (solve n g s)) (snd (solve n g s)).
Proof.
  induction n as [n IHn] using lt_wf_ind.
  induction g as [f|g1 IH1 g2 IH2|g1 IH1 g2 IH2|c IHc t IHt e IHe| |f IHf|f IHf u rc IHr|f|p];
    intros s K C cb h r Hg Hh HC Hr.
  - replace (solve n (Prim _ _ _ f) s) with (match f s with Some a => [a] | None => [] end, Fail_) by (destruct n; reflexivity).
    cbn [fst snd]. destruct (f s) as [a|] eqn:E.
    + eapply pl_ans with (k := 1) (D := C); [apply si_1; cbn [Catch_Model.step]; now rewrite E|exact HC|reflexivity|auto|].
      eapply pl_fail; constructor.
    + eapply pl_fail. apply si_1. cbn [Catch_Model.step]. now rewrite E.
  - replace (solve n (Conj _ _ _ g1 g2) s) with (let '(l, st) := solve n g1 s in each (solve n g2) l st) by (destruct n; reflexivity).
    destruct Hg as [Hg1 Hg2]. one.
    specialize (IH1 s (FGoal g2 cb :: K) C cb h (r - 1) Hg1 Hh HC ltac:(lia)).
    destruct (solve n g1 s) as [l st]. eapply pl_each; [exact IH1|exact Hh|exact HC|].
    intros s' D r' Hr' HD _. apply IH2; auto; lia.
  - replace (solve n (Disj _ _ _ g1 g2) s) with (let '(l, st) := solve n g1 s in
      match st with Catch_Spec.Fail_ _ => then_ _ _ l (solve n g2 s) | _ => (l, st) end) by (destruct n; reflexivity).
    destruct Hg as [Hg1 Hg2]. one. set (C1 := CAlt s (FGoal g2 cb :: K) :: C).
    assert (L1 : length C1 = S (length C)) by reflexivity.
    assert (E1 : lastn cb C1 = lastn cb C) by now apply lastn_cons.
    specialize (IH1 s K C1 cb h (r - 1) Hg1 Hh ltac:(lia) ltac:(lia)).
    destruct (solve n g1 s) as [l st]. cbn [fst snd] in IH1. destruct st; cbn [fst snd].
    + unfold then_; cbn [fst snd]. eapply pl_seq; [exact IH1|lia..|exact E1|]. cbv iota. split; [|lia].
      one. apply IH2; auto; lia.
    + rewrite <- (app_nil_r l). eapply pl_seq; [exact IH1|lia..|exact E1|]. cbv iota. split; [|auto].
      rewrite E1. eapply pl_cut; constructor.
    + rewrite <- (app_nil_r l). eapply pl_seq; [exact IH1|lia..|exact E1|]. now split.
    + rewrite <- (app_nil_r l). eapply pl_seq; [exact IH1|lia..|exact E1|]. now split.
  - replace (solve n (If _ _ _ c t e) s) with (match solve n c s with
      | (a :: _, _) => solve n t a
      | ([], Catch_Spec.Fail_ _) | ([], Catch_Spec.Cut_ _) => solve n e s | R => R end) by (destruct n; reflexivity).
    destruct Hg as (Hc & Ht & He). one. set (C1 := CAlt s (FGoal e cb :: K) :: C).
    assert (L1 : length C1 = S (length C)) by reflexivity. rewrite <- L1.
    specialize (IHc s (FCut (length C) :: FGoal t cb :: K) C1 (length C1) h (r - 1) Hc ltac:(lia) ltac:(lia) ltac:(lia)).
    assert (Eh : forall m, m <= length C -> lastn m C1 = lastn m C) by (intros; now apply lastn_cons).
    destruct (solve n c s) as [l st]. cbn [fst snd] in IHc.
    inversion IHc as [r0 c0 k Si|r0 c0 k Si|r0 c0 k b D Si Hb HD ED|r0 c0 k c' Si Hk|r0 c0 k a D l0 st0 Si HD ED _ _]; subst; cbn [fst snd].
    + eapply pl_pre; [eapply si_trans; [exact Si|apply si_1; reflexivity]|]. apply IHe; auto; lia.
    + rewrite lastn_all in Si. eapply pl_pre; [eapply si_trans; [exact Si|apply si_1; reflexivity]|]. apply IHe; auto; lia.
    + eapply pl_exc; [exact Si|exact Hb|exact HD|]. rewrite ED. apply Eh. lia.
    + eapply pl_more; eassumption.
    + rewrite lastn_all in ED.
      assert (EC : lastn (length C) D = C).
      { transitivity (lastn (length C) C1); [|rewrite Eh by lia; apply lastn_all].
        apply (lastn_eq (length C) (length C1)); try lia. now rewrite lastn_all. }
      eapply pl_pre; [eapply si_trans; [exact Si|apply si_1; cbn [Catch_Model.step]; rewrite EC; reflexivity]|].
      apply IHt; auto; lia.
  - replace (solve n (Cut _ _ _) s) with ([s], Cut_) by (destruct n; reflexivity). cbn [fst snd].
    eapply pl_ans with (k := 1) (D := lastn cb C); [apply si_1; reflexivity|rewrite lastn_len; lia|apply lastn_lastn; lia|auto|].
    eapply pl_cut; constructor.
  - replace (solve n (Call _ _ _ f) s) with (opaque _ _ (solve n (f s) s)) by (destruct n; reflexivity).
    one. apply pl_opaque; [|exact Hh|exact HC]. apply IHf; [apply Hg|lia..].
  - replace (solve n (Catch _ _ _ f u rc) s) with (let '(l, st) := opaque _ _ (solve n (f s) s) in
      match st with
      | Catch_Spec.Exc _ b => match u b s with Some s' => then_ _ _ l (opaque _ _ (solve n (rc s') s')) | None => (l, st) end
      | _ => (l, st) end) by (destruct n; reflexivity).
    destruct Hg as [Hf Hrc]. one. set (C1 := CCatch s u rc K h :: C).
    specialize (IHf s s (FExit (length C1) h :: K) C1 (length C1) (length C1) (r - 1) (Hf s) ltac:(lia) ltac:(lia) ltac:(lia)).
    pose proof (fun l2 st2 => pl_catch s u rc K C cb h (r - 1) _ _ _ l2 st2 IHf Hh HC) as Q.
    change (S (length C)) with (length C1).
    destruct (solve n (f s) s) as [l st]. cbn [fst snd] in *. unfold opaque; cbn [fst snd].
    destruct st; cbn [fst snd].
    + rewrite <- (app_nil_r l). now apply Q.
    + rewrite <- (app_nil_r l). now apply Q.
    + destruct (u b s) as [s'|] eqn:U.
      * unfold then_; cbn [fst snd]. apply Q.
        apply (pl_opaque K C cb h (r - 1) _ (solve n (rc s') s')); [|exact Hh|exact HC]. apply IHr; [apply Hrc|lia..].
      * cbn [fst snd]. rewrite <- (app_nil_r l). now apply Q.
    + rewrite <- (app_nil_r l). now apply Q.
  - replace (solve n (Throw _ _ _ f) s) with (@nil St, Exc (f s)) by (destruct n; reflexivity). cbn [fst snd].
    eapply pl_exc; [apply si_1; reflexivity|apply Hg|lia|reflexivity].
  - destruct n as [|n].
    + cbn [Catch_Spec.solve fst snd]. eapply pl_more; [constructor|lia].
    + change (solve (S n) (Pred _ _ _ p) s) with (opaque _ _ (solve n (prog p) s)).
      one. apply pl_opaque; [|exact Hh|exact HC]. apply IHn; try lia. apply Hprog.
Qed.

Notation run := (run St Ball Name nb isnb prog).
Notation Ans := (Ans St Ball).

Lemma run_silent k c c' : silent k c c' -> run k c = ([], c').
Proof. induction 1; [reflexivity|]. cbn [Catch_Model.run]. now rewrite H, IHsilent. Qed.
Lemma run_plus : forall k1 k2 c, run (k1 + k2) c =
  let '(e1, c1) := run k1 c in let '(e2, c2) := run k2 c1 in (e1 ++ e2, c2).
Proof.
  induction k1 as [|k1 IH]; intros k2 c; [cbn; now destruct (run k2 c)|].
  cbn [Nat.add Catch_Model.run]. destruct (step c) as [e c1]. rewrite IH.
  destruct (run k1 c1) as [e1 c2]. destruct (run k2 c2) as [e2 c3]. now destruct e.
Qed.

Lemma plays_run r c l st : plays [] [] 0 0 r c l st ->
  exists k c', run k c = (map Ans l, c') /\
  match st with
  | Catch_Spec.Fail_ _ | Catch_Spec.Cut_ _ => c' = Stop _ _ _
  | Catch_Spec.Exc _ b => exists D, c' = Raise b D 0
  | Catch_Spec.More _ => r <= k
  end.
Proof.
  induction 1 as [r c k Si|r c k Si|r c k b D Si Hb HD E1|r c k c' Si Hr|r c k a D l st Si HD E1 Hl P IH].
  - exists (k + 1), (Stop _ _ _). split; [|reflexivity]. rewrite run_plus, (run_silent _ _ _ Si). reflexivity.
  - exists (k + 1), (Stop _ _ _). split; [|reflexivity]. rewrite run_plus, (run_silent _ _ _ Si). reflexivity.
  - exists k, (Raise b D 0). split; [apply (run_silent _ _ _ Si)|eauto].
  - exists k, c'. split; [apply (run_silent _ _ _ Si)|exact Hr].
  - destruct IH as (k2 & c2 & R & M). exists (k + (1 + k2)), c2. split.
    + rewrite run_plus, (run_silent _ _ _ Si), run_plus. cbn [Catch_Model.run Catch_Model.step]. now rewrite R.
    + destruct st; auto. lia.
Qed.
End Proofs.
