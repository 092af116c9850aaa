(** C60: the registers written by the code of the terms, and the state of the generator. *)
Require Import List Bool Arith Lia Permutation.
Require Import Verif.RegAlloc_Model Verif.RegAlloc_Spec Verif.Clause_Model.
Import ListNotations.

Lemma tm_size_ind : forall P : tm -> Prop, (forall n, P (Tv n)) -> (forall b, P (Tc b)) -> (forall f l, (forall t, In t l -> P t) -> P (Tf f l)) -> forall t, P t.
Proof.
  intros P H1 H2 H3. fix IH 1. intros [n|b|f l]; [apply H1|apply H2|]. apply H3. induction l as [|a l IHl]; intros t H; [contradiction|]. destruct H as [<-|H]; [apply IH|apply IHl; exact H].
Qed.
Lemma depth_in : forall f l t, In t l -> depth t < depth (Tf f l).
Proof. intros f l t H. cbn. apply le_n_S. induction l as [|a l IH]; cbn; [contradiction|]. destruct H as [->|H]; [lia|]. specialize (IH H). lia. Qed.
Definition ldepth (l : list tm) : nat := fold_right (fun t d => max (depth t) d) 0 l.
Lemma ldepth_in : forall l t, In t l -> depth t <= ldepth l.
Proof. induction l as [|a l IH]; intros t H; cbn; [contradiction|]. destruct H as [->|H]; [lia|]. specialize (IH t H). unfold ldepth in IH. lia. Qed.

Definition known (s : st) (n : nat) : Prop := inf s n <> None.
Fixpoint fx (l : fargs) : list nat :=
  match l with Fnil => [] | Fcons (FX x _) l => x :: fx l | Fcons _ l => fx l | Flast _ _ l => fx l end.
Fixpoint fvars (l : fargs) : list nat :=
  match l with Fnil => [] | Fcons (FV n) l => n :: fvars l | Fcons _ l => fvars l | Flast _ _ l => fvars l end.
Fixpoint flen (l : fargs) : nat := match l with Fnil => 0 | Fcons _ l => S (flen l) | Flast _ _ _ => 1 end.
Fixpoint arity_ok (l : fargs) : Prop := match l with Fnil => True | Fcons _ l => arity_ok l | Flast _ n l => n = flen l /\ arity_ok l end.

Section Shape.
Variable fl : flags.
Variable kd : nat -> kind.
(** the variables of the clause are below [N0] *)
Variable N0 : nat.
Definition wfs (s : st) : Prop := N0 <= nxt s /\ forall n, nxt s <= n -> inf s n = None.

(** * flat *)
Inductive Flat (hb : bool) : list tm -> st -> fargs -> list (nat * tm) -> st -> Prop :=
| F_nil : forall s, Flat hb [] s Fnil [] s
| F_var : forall n l s fa ax s', Flat hb l s fa ax s' -> Flat hb (Tv n :: l) s (Fcons (FV n) fa) ax s'
| F_cst : forall b l s fa ax s', Flat hb l s fa ax s' -> Flat hb (Tc b :: l) s (Fcons (FC b) fa) ax s'
| F_aux : forall a l s x s1 fa ax s', new_aux hb s = (x, s1) -> Flat hb l s1 fa ax s' -> Flat hb (a :: l) s (Fcons (FX x a) fa) ((x, a) :: ax) s'
| F_last : forall f l s fa ax s', Flat hb l s fa ax s' -> Flat hb [Tf f l] s (Flast f (length l) fa) ax s'.

Lemma flat_Flat : forall hb t s fa ax s', flat fl hb t s = (fa, ax, s') -> match t with Tf _ l => Flat hb l s fa ax s' | _ => True end.
Proof.
  intros hb. induction t as [n|b|f l IH] using tm_size_ind; intros s fa ax s' E; [constructor|constructor|].
  change (flat fl hb (Tf 0 l) s = (fa, ax, s')) in E. revert s fa ax s' E. induction l as [|a l IHl]; intros s fa ax s' E.
  - cbn in E. injection E as <- <- <-. constructor.
  - assert (IHl' : forall s fa ax s', flat fl hb (Tf 0 l) s = (fa, ax, s') -> Flat hb l s fa ax s') by (apply IHl; intros t Ht; apply IH; right; exact Ht). clear IHl.
    assert (AUX : (let (x, s) := new_aux hb s in let '(fa, ax, s) := flat fl hb (Tf 0 l) s in (Fcons (FX x a) fa, (x, a) :: ax, s)) = (fa, ax, s') -> Flat hb (a :: l) s fa ax s').
    { destruct (new_aux hb s) as (x, s1) eqn:EN. destruct (flat fl hb (Tf 0 l) s1) as ((fa1, ax1), s2) eqn:E1. intros Q. injection Q as <- <- <-. apply F_aux with s1; auto. }
    destruct a as [n|b|f1 l1].
    + change ((let '(fa, ax, s) := flat fl hb (Tf 0 l) s in (Fcons (FV n) fa, ax, s)) = (fa, ax, s')) in E. destruct (flat fl hb (Tf 0 l) s) as ((fa1, ax1), s2) eqn:E1. injection E as <- <- <-. constructor. auto.
    + change ((if simple_const b then let '(fa, ax, s) := flat fl hb (Tf 0 l) s in (Fcons (FC b) fa, ax, s) else (let (x, s) := new_aux hb s in let '(fa, ax, s) := flat fl hb (Tf 0 l) s in (Fcons (FX x (Tc b)) fa, (x, Tc b) :: ax, s))) = (fa, ax, s')) in E.
      destruct (simple_const b); [|auto]. destruct (flat fl hb (Tf 0 l) s) as ((fa1, ax1), s2) eqn:E1. injection E as <- <- <-. constructor. auto.
    + destruct l as [|a2 l].
      * change ((if opt_last fl && negb (is_mt f1 l1) then let '(fa, ax, s) := flat fl hb (Tf f1 l1) s in (Flast f1 (length l1) fa, ax, s) else (let (x, s) := new_aux hb s in let '(fa, ax, s) := flat fl hb (Tf 0 []) s in (Fcons (FX x (Tf f1 l1)) fa, (x, Tf f1 l1) :: ax, s))) = (fa, ax, s')) in E.
        destruct (opt_last fl && negb (is_mt f1 l1)); [|auto]. destruct (flat fl hb (Tf f1 l1) s) as ((fa1, ax1), s2) eqn:E1. injection E as <- <- <-. constructor. apply (IH (Tf f1 l1) (or_introl eq_refl) _ _ _ _ E1).
      * change ((let (x, s) := new_aux hb s in let '(fa, ax, s) := flat fl hb (Tf 0 (a2 :: l)) s in (Fcons (FX x (Tf f1 l1)) fa, (x, Tf f1 l1) :: ax, s)) = (fa, ax, s')) in E. auto.
Qed.
Lemma Flat_shape : forall hb l s fa ax s', Flat hb l s fa ax s' ->
  fx fa = map fst ax /\ arity_ok fa /\ flen fa = length l /\ map fst ax = seq (nxt s) (length ax) /\ nxt s' = nxt s + length ax /\
  Permutation (fvars fa ++ lvars (map snd ax)) (lvars l) /\ (forall t, In t (map snd ax) -> depth t <= ldepth l).
Proof.
  induction 1 as [s|n l s fa ax s' H IH|b l s fa ax s' H IH|a l s x s1 fa ax s' E H IH|f l s fa ax s' H IH].
  - cbn. split; [reflexivity|]. split; [constructor|]. split; [reflexivity|]. split; [reflexivity|]. split; [lia|]. split; [constructor|contradiction].
  - destruct IH as (I1 & I2 & I3 & I4 & I5 & I6 & I7). cbn. split; [exact I1|]. split; [solve [auto]|]. split; [solve [auto]|]. split; [exact I4|]. split; [exact I5|]. split; [constructor; exact I6|]. intros t Ht. specialize (I7 t Ht). unfold ldepth in I7. lia.
  - destruct IH as (I1 & I2 & I3 & I4 & I5 & I6 & I7). cbn. split; [exact I1|]. split; [solve [auto]|]. split; [solve [auto]|]. split; [exact I4|]. split; [exact I5|]. split; [exact I6|]. intros t Ht. specialize (I7 t Ht). unfold ldepth in I7. lia.
  - destruct IH as (I1 & I2 & I3 & I4 & I5 & I6 & I7). assert (Q : x = nxt s /\ nxt s1 = S (nxt s)) by (unfold new_aux, new_reg in E; destruct hb; injection E as <- <-; auto).
    destruct Q as (-> & Q). rewrite Q in *. cbn. split; [f_equal; exact I1|]. split; [exact I2|]. split; [lia|]. split; [f_equal; exact I4|]. split; [lia|]. split.
    + unfold lvars in *. cbn. rewrite app_assoc, (Permutation_app_comm (fvars fa) (vars a)), <- app_assoc. apply Permutation_app_head. exact I6.
    + intros t [<-|Ht]; [lia|]. specialize (I7 t Ht). unfold ldepth in I7. lia.
  - destruct IH as (I1 & I2 & I3 & I4 & I5 & I6 & I7). cbn. split; [exact I1|]. split; [solve [auto]|]. split; [solve [auto]|]. split; [exact I4|]. split; [exact I5|]. split; [unfold lvars in *; cbn; rewrite app_nil_r; exact I6|]. intros t Ht. specialize (I7 t Ht). unfold ldepth in I7. lia.
Qed.
Lemma Flat_inf : forall hb l s fa ax s', Flat hb l s fa ax s' -> wfs s -> wfs s' /\ (forall n, n < nxt s -> inf s' n = inf s n) /\
  (forall x, In x (map fst ax) -> inf s' x = if hb then None else Some in_heap).
Proof.
  induction 1 as [s|n l s fa ax s' H IH|b l s fa ax s' H IH|a l s x s1 fa ax s' E H IH|f l s fa ax s' H IH]; intros W; auto.
  - split; [exact W|]. split; [auto|contradiction].
  - assert (W1 : wfs s1). { destruct W as (W1 & W2). unfold new_aux, new_reg in E. destruct hb; injection E as <- <-; split; cbn; try lia; intros n Hn; [apply W2; lia|]. destruct (n =? nxt s) eqn:EE; [apply Nat.eqb_eq in EE; lia|]. apply W2. lia. }
    destruct (IH W1) as (I1 & I2 & I3). assert (Q : x = nxt s /\ nxt s1 = S (nxt s) /\ (forall n, n < nxt s -> inf s1 n = inf s n) /\ inf s1 (nxt s) = if hb then None else Some in_heap).
    { destruct W as (W3 & W2). unfold new_aux, new_reg in E. destruct hb; injection E as <- <-; cbn; (split; [reflexivity|]; split; [reflexivity|]; split).
      - auto. - apply W2. lia. - intros n Hn. destruct (n =? nxt s) eqn:EE; [apply Nat.eqb_eq in EE; lia|reflexivity]. - rewrite Nat.eqb_refl. reflexivity. }
    destruct Q as (-> & Q1 & Q2 & Q3). split; [exact I1|]. split; [intros n Hn; rewrite I2 by lia; apply Q2; exact Hn|]. intros x [<-|Hx]; [|auto]. cbn. rewrite I2 by lia. exact Q3.
Qed.

(** * Shape of the code *)
Definition tnum (x : reg) : list nat := match x with T n => [n] | A _ => [] end.
Definition tw (l : list inst) : list nat := flat_map tnum (flat_map writes_of l).
Record shape (X Vs : list nat) (s s' : st) (l : list inst) : Prop := Shp {
  sh_nxt : nxt s <= nxt s';
  sh_mono : forall n, known s n -> inf s' n = inf s n;
  sh_new : forall n, known s' n -> known s n \/ (n < N0 /\ In n Vs /\ kd n <> KVoid) \/ In n X \/ nxt s <= n < nxt s';
  sh_vars : forall n, In n Vs -> kd n <> KVoid -> known s' n;
  sh_lost : forall i, In i l -> lost_by i = false;
  sh_tw : forall n, In n (tw l) -> In n X \/ (n < N0 /\ kd n = KX /\ ~ known s n /\ In n Vs) \/ nxt s <= n < nxt s';
  sh_nd : NoDup (tw l);
  sh_copy : forall i x y, In i l -> effect_of i = Copy x y -> x <> y }.
Lemma tw_app : forall l1 l2, tw (l1 ++ l2) = tw l1 ++ tw l2.
Proof. intros. unfold tw. rewrite !flat_map_app. reflexivity. Qed.
Lemma tw_cons : forall i l, tw (i :: l) = flat_map tnum (writes_of i) ++ tw l.
Proof. intros. unfold tw. cbn. rewrite flat_map_app. reflexivity. Qed.
Lemma tw_in : forall n l, In n (tw l) <-> In (T n) (flat_map writes_of l).
Proof.
  intros n l. unfold tw. rewrite in_flat_map. split.
  - intros ([a|t] & H1 & H2); cbn in H2; [contradiction|]. destruct H2 as [->|[]]. exact H1.
  - intros H. exists (T n). cbn. auto.
Qed.
Lemma NoDup_app : forall (l1 l2 : list nat), NoDup l1 -> NoDup l2 -> (forall x, In x l1 -> In x l2 -> False) -> NoDup (l1 ++ l2).
Proof.
  induction l1 as [|a l1 IH]; intros l2 N1 N2 D; cbn; [exact N2|]. inversion N1; subst. constructor.
  - rewrite in_app_iff. intros [Q|Q]; [contradiction|]. apply (D a); cbn; auto.
  - apply IH; auto. intros x Q1 Q2. apply (D x); cbn; auto.
Qed.
Lemma NoDup_app_remove_l : forall (l1 l2 : list nat), NoDup (l1 ++ l2) -> NoDup l2.
Proof. induction l1 as [|a l1 IH]; intros l2 N; [exact N|]. inversion N; subst. auto. Qed.
Lemma known_dec : forall s n, known s n \/ ~ known s n.
Proof. intros s n. unfold known. destruct (inf s n); [left; discriminate|right; intros Q; apply Q; reflexivity]. Qed.
Lemma known_mono : forall X Vs s s' l n, shape X Vs s s' l -> known s n -> known s' n.
Proof. intros X Vs s s' l n Sh K. unfold known. rewrite (sh_mono _ _ _ _ _ Sh n K). exact K. Qed.
Lemma shape_nil : forall s, shape [] [] s s [].
Proof. intros s. constructor; cbn; try contradiction; auto. constructor. Qed.
Lemma shape_wfs : forall X Vs s s' l, shape X Vs s s' l -> wfs s -> (forall x, In x X -> x < nxt s) -> wfs s'.
Proof.
  intros X Vs s s' l Sh (W1 & W2) HX. pose proof (sh_nxt _ _ _ _ _ Sh). split; [lia|]. intros n Hn. destruct (inf s' n) eqn:E; [exfalso|reflexivity].
  assert (K : known s' n) by (unfold known; congruence). destruct (sh_new _ _ _ _ _ Sh n K) as [Q|[Q|[Q|Q]]]; [apply Q; apply W2; lia|lia|specialize (HX n Q); lia|lia].
Qed.
Lemma shape_app : forall X1 X2 V1 V2 s s1 s2 l1 l2, shape X1 V1 s s1 l1 -> shape X2 V2 s1 s2 l2 -> wfs s ->
  (forall x, In x (X1 ++ X2) -> N0 <= x < nxt s) -> (forall x, In x X1 -> In x X2 -> False) -> shape (X1 ++ X2) (V1 ++ V2) s s2 (l1 ++ l2).
Proof.
  intros X1 X2 V1 V2 s s1 s2 l1 l2 S1 S2 (W1 & W2) HX HD. pose proof (sh_nxt _ _ _ _ _ S1). pose proof (sh_nxt _ _ _ _ _ S2). constructor.
  - lia.
  - intros n K. rewrite (sh_mono _ _ _ _ _ S2 n (known_mono _ _ _ _ _ _ S1 K)). apply (sh_mono _ _ _ _ _ S1 n K).
  - intros n K. rewrite !in_app_iff. destruct (sh_new _ _ _ _ _ S2 n K) as [Q|[Q|[Q|Q]]]; [destruct (sh_new _ _ _ _ _ S1 n Q) as [Q1|[Q1|[Q1|Q1]]]; [auto|tauto|tauto|right; right; right; lia]|tauto|tauto|right; right; right; lia].
  - intros n Hn NV. rewrite in_app_iff in Hn. destruct Hn as [Hn|Hn]; [apply (known_mono _ _ _ _ _ _ S2); apply (sh_vars _ _ _ _ _ S1 n Hn NV)|apply (sh_vars _ _ _ _ _ S2 n Hn NV)].
  - intros i Hi. rewrite in_app_iff in Hi. destruct Hi; [apply (sh_lost _ _ _ _ _ S1); auto|apply (sh_lost _ _ _ _ _ S2); auto].
  - intros n Hn. rewrite tw_app in Hn. rewrite in_app_iff in *. rewrite in_app_iff. destruct Hn as [Hn|Hn].
    + destruct (sh_tw _ _ _ _ _ S1 n Hn) as [Q|[Q|Q]]; [tauto|tauto|right; right; lia].
    + destruct (sh_tw _ _ _ _ _ S2 n Hn) as [Q|[(Q1 & Q2 & Q3 & Q4)|Q]]; [tauto| |right; right; lia]. right. left. repeat (split; [assumption|]). split; [|tauto]. intros K. apply Q3. apply (known_mono _ _ _ _ _ _ S1 K).
  - rewrite tw_app. apply NoDup_app; [apply (sh_nd _ _ _ _ _ S1)|apply (sh_nd _ _ _ _ _ S2)|]. intros n H1 H2.
    assert (XN : forall x, In x X1 \/ In x X2 -> N0 <= x < nxt s) by (intros x Hx; apply HX; apply in_app_iff; exact Hx).
    destruct (sh_tw _ _ _ _ _ S1 n H1) as [Q|[(Q1 & Q2 & Q3 & Q4)|Q]]; destruct (sh_tw _ _ _ _ _ S2 n H2) as [P|[(P1 & P2 & P3 & P4)|P]];
      try (pose proof (XN n (or_introl Q))); try (pose proof (XN n (or_intror P))); try lia.
    + apply (HD n Q P).
    + apply P3. apply (sh_vars _ _ _ _ _ S1 n Q4). congruence.
  - intros i x y Hi. rewrite in_app_iff in Hi. destruct Hi; [apply (sh_copy _ _ _ _ _ S1); auto|apply (sh_copy _ _ _ _ _ S2); auto].
Qed.
Lemma shape_incl : forall X Vs Vs' s s' l, shape X Vs s s' l -> (forall n, In n Vs <-> In n Vs') -> shape X Vs' s s' l.
Proof.
  intros X Vs Vs' s s' l [H1 H2 H3 H4 H5 H6 H7 H8] E. constructor; auto.
  - intros n K. rewrite <- E. auto.
  - intros n Hn. apply H4. apply E. exact Hn.
  - intros n Hn. rewrite <- E. auto.
Qed.
Lemma shape_swap : forall X Y Vs s s' l, shape (X ++ Y) Vs s s' l -> shape (Y ++ X) Vs s s' l.
Proof.
  intros X Y Vs s s' l [H1 H2 H3 H4 H5 H6 H7 H8]. constructor; auto; intros n Hn.
  - destruct (H3 n Hn) as [Q|[Q|[Q|Q]]]; auto. apply in_app_iff in Q. right. right. left. apply in_app_iff. tauto.
  - destruct (H6 n Hn) as [Q|[Q|Q]]; auto. apply in_app_iff in Q. left. apply in_app_iff. tauto.
Qed.
(** after flat *)
Lemma shape_flat : forall X Y Vs s s1 s2 l, shape (X ++ Y) Vs s1 s2 l -> nxt s <= nxt s1 -> N0 <= nxt s -> (forall n, n < nxt s -> inf s1 n = inf s n) -> (forall n, nxt s <= n -> inf s n = None) ->
  (forall n, known s1 n -> n < nxt s1) -> (forall x, In x Y -> nxt s <= x < nxt s1) -> shape X Vs s s2 l.
Proof.
  intros X Y Vs s s1 s2 l [H1 H2 H3 H4 H5 H6 H7 H8] L1 L2 E1 E2 E3 HY. constructor; auto.
  - lia.
  - intros n K. assert (n < nxt s) by (destruct (le_lt_dec (nxt s) n) as [Q|Q]; [exfalso; apply K; apply E2; exact Q|exact Q]). rewrite <- (E1 n) by assumption. apply H2. unfold known. rewrite E1 by assumption. exact K.
  - intros n K. destruct (H3 n K) as [Q|[Q|[Q|Q]]]; [|tauto| |right; right; right; lia].
    + destruct (le_lt_dec (nxt s) n) as [Q1|Q1]; [right; right; right; specialize (E3 n Q); lia|]. left. unfold known in *. rewrite <- E1; assumption.
    + rewrite in_app_iff in Q. destruct Q as [Q|Q]; [tauto|]. specialize (HY n Q). right. right. right. lia.
  - intros n Hn. destruct (H6 n Hn) as [Q|[(Q1 & Q2 & Q3 & Q4)|Q]]; [| |right; right; lia].
    + rewrite in_app_iff in Q. destruct Q as [Q|Q]; [tauto|]. specialize (HY n Q). right. right. lia.
    + right. left. repeat (split; [assumption|]). split; [|exact Q4]. intros K. apply Q3. unfold known in *. rewrite E1; [exact K|lia].
Qed.
Lemma shape_other : forall k s, shape [] [] s s [other k].
Proof. intros k s. constructor; cbn; try contradiction; auto. - intros i [<-|[]]. reflexivity. - constructor. - intros i x y [<-|[]]. cbn. discriminate. Qed.
Lemma shape_get : forall k x s, shape [] [] s s [get_arg k x].
Proof. intros k x s. constructor; cbn; try contradiction; auto. - intros i [<-|[]]. reflexivity. - constructor. - intros i z y [<-|[]]. cbn. discriminate. Qed.
Lemma shape_put : forall k x s, shape (tnum x) [] s s [put_arg k x].
Proof.
  intros k x s. constructor; try contradiction; auto.
  - intros i [<-|[]]. reflexivity. - intros n. unfold tw. cbn. rewrite app_nil_r. auto. - unfold tw. cbn. rewrite app_nil_r. destruct x; cbn; constructor; [intros []|constructor]. - intros i z y [<-|[]]. cbn. discriminate.
Qed.

(** ** Variables *)
Lemma known_set : forall s n i m, known (set_inf s n i) m <-> known s m \/ m = n.
Proof. intros s n i m. unfold known, set_inf. cbn. destruct (Nat.eqb_spec m n); [split; [auto|discriminate]|split; [auto|intros [Q|Q]; [exact Q|contradiction]]]. Qed.
Lemma set_mono : forall s n i m, ~ known s n -> known s m -> inf (set_inf s n i) m = inf s m.
Proof. intros s n i m NK K. cbn. destruct (Nat.eqb_spec m n); [subst; contradiction|reflexivity]. Qed.
Ltac one := let i := fresh in intros i [<-|[]]; reflexivity.
Lemma unif_var_shape : forall n x s l s', unif_var kd n x s = (l, s') -> n < N0 -> (forall t, x = T t -> N0 <= t) -> shape [] [n] s s' l.
Proof.
  intros n x s l s' E L HX. unfold unif_var in E. destruct (inf s n) eqn:EI.
  - assert (K : known s n) by (unfold known; congruence). assert (Q : s' = s /\ (l = [get_value_x (T n) x] \/ exists y, l = [get_arg (i_get_value y) x])) by (destruct (kd n); injection E as <- <-; eauto). destruct Q as (-> & Q).
    constructor; auto.
    + intros m [<-|[]] _. exact K.
    + destruct Q as [->|(y & ->)]; one.
    + intros m. destruct Q as [->|(y & ->)]; cbn; contradiction.
    + destruct Q as [->|(y & ->)]; constructor.
    + destruct Q as [->|(y & ->)]; intros i a b [<-|[]]; cbn; discriminate.
  - assert (NK : ~ known s n) by (unfold known; intros Q; apply Q; exact EI). destruct (kd n) eqn:EK; injection E as <- <-.
    + constructor; cbn [nxt set_inf]; auto.
      * intros m K. apply set_mono; assumption.
      * intros m K. apply known_set in K. destruct K as [K| ->]; [auto|]. right. left. split; [exact L|]. split; [left; reflexivity|congruence].
      * intros m [<-|[]] _. apply known_set. auto.
      * one.
      * cbn. intros m [<-|[]]. right. left. rewrite EK. auto.
      * cbn. constructor; [intros []|constructor].
      * intros i a b [<-|[]]. cbn. intros Q. injection Q as <- <-. intros ->. specialize (HX n eq_refl). lia.
    + constructor; auto; cbn; try contradiction; try constructor. intros m [<-|[]]. congruence.
    + constructor; cbn [nxt set_inf]; auto.
      * intros m K. apply set_mono; assumption.
      * intros m K. apply known_set in K. destruct K as [K| ->]; [auto|]. right. left. split; [exact L|]. split; [left; reflexivity|congruence].
      * intros m [<-|[]] _. apply known_set. auto.
      * one.
      * constructor.
      * intros i a b [<-|[]]. cbn. discriminate.
Qed.
Lemma load_var_shape : forall lp n x s l s', load_var kd lp n x s = (l, s') -> n < N0 -> (forall t, x = T t -> N0 <= t) -> (lp = true -> forall y, kd n = KY y -> known s n) -> shape (tnum x) [n] s s' l.
Proof.
  intros lp n x s l s' E L HX HL. unfold load_var in E.
  assert (ND : NoDup (tnum x)) by (destruct x; cbn; constructor; [intros []|constructor]).
  assert (XN : forall t, In t (tnum x) -> N0 <= t) by (intros t Ht; destruct x; cbn in Ht; [contradiction|]; destruct Ht as [->|[]]; apply HX; reflexivity).
  destruct (inf s n) eqn:EI.
  - assert (K : known s n) by (unfold known; congruence). assert (Q : s' = s /\ (l = [put_value_x (T n) x] \/ exists k, l = [put_arg k x])) by (destruct (kd n); injection E as <- <-; eauto). destruct Q as (-> & Q).
    constructor; auto.
    + intros m [<-|[]] _. exact K.
    + destruct Q as [->|(y & ->)]; one.
    + intros m. destruct Q as [->|(y & ->)]; unfold tw; cbn; rewrite app_nil_r; auto.
    + destruct Q as [->|(y & ->)]; unfold tw; cbn; rewrite app_nil_r; exact ND.
    + destruct Q as [->|(y & ->)]; intros i a b [<-|[]]; cbn; [|discriminate]. intros Q. injection Q as <- <-. intros <-. specialize (HX n eq_refl). lia.
  - assert (NK : ~ known s n) by (unfold known; intros Q; apply Q; exact EI). destruct (kd n) eqn:EK; injection E as <- <-.
    + constructor; cbn [nxt set_inf]; auto.
      * intros m K. apply set_mono; assumption.
      * intros m K. apply known_set in K. destruct K as [K| ->]; [auto|]. right. left. split; [exact L|]. split; [left; reflexivity|congruence].
      * intros m [<-|[]] _. apply known_set. auto.
      * one.
      * unfold tw. cbn. rewrite app_nil_r. intros m [<-|Hm]; [|auto]. right. left. rewrite EK. auto.
      * unfold tw. cbn. rewrite app_nil_r. constructor; [intros Q; specialize (XN n Q); lia|exact ND].
      * intros i a b [<-|[]]. cbn. discriminate.
    + constructor; auto; try (unfold tw; cbn; rewrite app_nil_r; auto; fail).
      * intros m [<-|[]]. congruence.
      * one.
      * intros i a b [<-|[]]. cbn. discriminate.
    + destruct lp; [exfalso; apply NK; apply (HL eq_refl y eq_refl)|]. constructor; cbn [nxt set_inf]; auto; try (unfold tw; cbn; rewrite app_nil_r; auto; fail).
      * intros m K. apply set_mono; assumption.
      * intros m K. apply known_set in K. destruct K as [K| ->]; [auto|]. right. left. split; [exact L|]. split; [left; reflexivity|congruence].
      * intros m [<-|[]] _. apply known_set. auto.
      * one.
      * intros i a b [<-|[]]. cbn. discriminate.
Qed.
(** [X]: the register which are written *)
Lemma sub_var_shape : forall n s l s', sub_var n (kd n) s = (l, s') -> n < N0 -> kd n <> KVoid -> shape [] [n] s s' l.
Proof.
  intros n s l s' E L NV. unfold sub_var in E. destruct (inf s n) as [i|] eqn:EI.
  - assert (K : known s n) by (unfold known; congruence).
    assert (Q : s' = s /\ ((exists k, l = [unify_value_x k (T n)]) \/ exists k, l = [other k])) by (destruct i, (kd n); injection E as <- <-; eauto). destruct Q as (-> & Q).
    constructor; auto.
    + intros m [<-|[]] _. exact K.
    + destruct Q as [(k & ->)|(k & ->)]; one.
    + intros m. destruct Q as [(k & ->)|(k & ->)]; cbn; contradiction.
    + destruct Q as [(k & ->)|(k & ->)]; constructor.
    + destruct Q as [(k & ->)|(k & ->)]; intros j a b [<-|[]]; cbn; discriminate.
  - assert (NK : ~ known s n) by (unfold known; intros Q; apply Q; exact EI). 
    assert (Q : s' = set_inf s n in_heap /\ ((l = [unify_variable_x (T n)] /\ kd n = KX) \/ exists k, l = [other k])) by (destruct (kd n); injection E as <- <-; [auto|congruence|eauto]). destruct Q as (-> & Q).
    constructor; cbn [nxt set_inf]; auto.
    + intros m K. apply set_mono; assumption.
    + intros m K. apply known_set in K. destruct K as [K| ->]; [auto|]. right. left. split; [exact L|]. split; [left; reflexivity|congruence].
    + intros m [<-|[]] _. apply known_set. auto.
    + destruct Q as [(-> & _)|(k & ->)]; one.
    + destruct Q as [(-> & EK)|(k & ->)]; cbn; [|contradiction]. intros m [<-|[]]. right. left. auto.
    + destruct Q as [(-> & _)|(k & ->)]; cbn; [constructor; [intros []|constructor]|constructor].
    + destruct Q as [(-> & _)|(k & ->)]; intros j a b [<-|[]]; cbn; discriminate.
Qed.
(** a register for a subterm: not written yet (head), or loaded (body) *)
Definition aux_ok (hb : bool) (s : st) (x : nat) : Prop := N0 <= x < nxt s /\ inf s x = if hb then None else Some in_heap.
Lemma sub_aux_shape : forall hb x s l s', sub_var x KX s = (l, s') -> aux_ok hb s x -> shape (if hb then [x] else []) [] s s' l.
Proof.
  intros hb x s l s' E (L & EI). unfold sub_var in E. rewrite EI in E. destruct hb; injection E as <- <-.
  - assert (NK : ~ known s x) by (unfold known; intros Q; apply Q; exact EI). constructor; cbn [nxt set_inf]; auto.
    + intros m K. apply set_mono; assumption.
    + intros m K. apply known_set in K. destruct K as [K| ->]; [auto|]. cbn. auto.
    + intros m [].
    + one.
    + cbn. constructor; [intros []|constructor].
    + intros i a b [<-|[]]. cbn. discriminate.
  - constructor; auto; cbn; try contradiction; try constructor. + one. + intros i a b [<-|[]]. cbn. discriminate.
Qed.
Lemma voids_shape : forall v s, (forall n, In n v -> kd n = KVoid) -> shape [] v s s (voids v).
Proof.
  intros v s HV. assert (Q : shape [] [] s s (voids v)) by (destruct v; [apply shape_nil|apply shape_other]). destruct Q as [H1 H2 H3 H4 H5 H6 H7 H8]. constructor; auto.
  - intros n Hn NV. specialize (HV n Hn). contradiction.
  - intros n Hn. destruct (H6 n Hn) as [Q|[(_ & _ & _ & [])|Q]]; auto.
Qed.
Definition wr_aux (hb : bool) (l : fargs) : list nat := if hb then fx l else [].
Lemma aux_ok_mono : forall hb X Vs s s' l x, shape X Vs s s' l -> aux_ok hb s x -> ~ In x X -> aux_ok hb s' x.
Proof.
  intros hb X Vs s s' l x Sh (L & EI) NX. pose proof (sh_nxt _ _ _ _ _ Sh). split; [lia|]. destruct hb.
  - destruct (inf s' x) eqn:E; [exfalso|reflexivity]. assert (K : known s' x) by (unfold known; congruence). destruct (sh_new _ _ _ _ _ Sh x K) as [Q|[Q|[Q|Q]]]; [apply Q; exact EI|lia|contradiction|lia].
  - rewrite <- EI. apply (sh_mono _ _ _ _ _ Sh). unfold known. congruence.
Qed.
Lemma gen_sub_shape : forall hb l v s c s', gen_sub kd v l s = (c, s') -> wfs s -> (forall n, In n (fvars l) -> n < N0) -> (forall n, In n v -> kd n = KVoid) ->
  (forall x, In x (fx l) -> aux_ok hb s x) -> NoDup (fx l) -> shape (wr_aux hb l) (v ++ fvars l) s s' c.
Proof.
  intros hb. induction l as [|[n|b|x t] l IH|f n l IH]; intros v s c s' E W HN HV HX ND.
  - cbn in E. injection E as <- <-. cbn [fvars]. rewrite app_nil_r. destruct hb; apply voids_shape; exact HV.
  - cbn [gen_sub] in E. cbn [fvars fx] in *. unfold is_void in E. assert (ON : kd n = KVoid \/ kd n <> KVoid) by (destruct (kd n); auto; right; discriminate).
    destruct ON as [EK|NV].
    + rewrite EK in E. change (v ++ n :: fvars l) with (v ++ [n] ++ fvars l). rewrite app_assoc. apply IH; auto; [intros m Hm; apply HN; right; exact Hm|]. intros m Hm. rewrite in_app_iff in Hm. destruct Hm as [Hm|[<-|[]]]; auto.
    + assert (E' : (let (c1, s) := sub_var n (kd n) s in let (c2, s) := gen_sub kd [] l s in (voids v ++ c1 ++ c2, s)) = (c, s')) by (destruct (kd n); [exact E|congruence|exact E]). clear E.
      destruct (sub_var n (kd n) s) as (c1, s1) eqn:E1. destruct (gen_sub kd [] l s1) as (c2, s2) eqn:E2. injection E' as <- <-.
      pose proof (sub_var_shape _ _ _ _ E1 (HN n (or_introl eq_refl)) NV) as S1.
      assert (S2 : shape (wr_aux hb l) ([] ++ fvars l) s1 s2 c2).
      { apply IH; auto; [apply (shape_wfs _ _ _ _ _ S1 W); intros ? []|intros m Hm; apply HN; right; exact Hm|intros m []|]. intros x Hx. apply (aux_ok_mono _ _ _ _ _ _ _ S1 (HX x Hx)). intros []. }
      assert (S12 := shape_app _ _ _ _ _ _ _ _ _ S1 S2 W). cbn [app] in S12.
      assert (HXw : forall x, In x (wr_aux hb l) -> N0 <= x < nxt s) by (intros x Hx; destruct hb; cbn in Hx; [apply (HX x Hx)|contradiction]).
      specialize (S12 HXw ltac:(intros ? [])). apply (shape_app [] _ _ _ _ _ _ _ _ (voids_shape v s HV) S12 W); [exact HXw|intros ? []].
  - cbn [gen_sub] in E. cbn [fvars fx] in *. destruct (gen_sub kd [] l s) as (c2, s2) eqn:E2. injection E as <- <-.
    assert (S2 : shape (wr_aux hb l) ([] ++ fvars l) s s2 c2) by (apply IH; auto; intros m []).
    assert (HXw : forall x, In x (wr_aux hb l) -> N0 <= x < nxt s) by (intros x Hx; destruct hb; cbn in Hx; [apply (HX x Hx)|contradiction]).
    assert (S12 := shape_app [] _ _ _ _ _ _ _ _ (shape_other (i_unify_const b) s) S2 W HXw ltac:(intros ? [])). apply (shape_app [] _ _ _ _ _ _ _ _ (voids_shape v s HV) S12 W); [exact HXw|intros ? []].
  - cbn [gen_sub] in E. cbn [fvars fx] in *. destruct (sub_var x KX s) as (c1, s1) eqn:E1. destruct (gen_sub kd [] l s1) as (c2, s2) eqn:E2. injection E as <- <-.
    pose proof (sub_aux_shape hb _ _ _ _ E1 (HX x (or_introl eq_refl))) as S1. inversion ND as [|? ? ND1 ND2]; subst.
    assert (S2 : shape (wr_aux hb l) ([] ++ fvars l) s1 s2 c2).
    { apply IH; auto; [apply (shape_wfs _ _ _ _ _ S1 W); intros z Hz; destruct hb; cbn in Hz; [destruct Hz as [<-|[]]; apply (HX x (or_introl eq_refl))|contradiction]|intros m []|].
      intros z Hz. apply (aux_ok_mono _ _ _ _ _ _ _ S1 (HX z (or_intror Hz))). destruct hb; cbn; [|auto]. intros [<-|[]]. contradiction. }
    assert (EX : wr_aux hb (Fcons (FX x t) l) = (if hb then [x] else []) ++ wr_aux hb l) by (destruct hb; reflexivity). rewrite EX.
    assert (HXw : forall z, In z ((if hb then [x] else []) ++ wr_aux hb l) -> N0 <= z < nxt s) by (rewrite <- EX; intros z Hz; destruct hb; cbn [wr_aux] in Hz; [apply (HX z Hz)|contradiction]).
    assert (S12 := shape_app _ _ _ _ _ _ _ _ _ S1 S2 W HXw). assert (HD : forall z, In z (if hb then [x] else []) -> In z (wr_aux hb l) -> False) by (intros z H1 H2; destruct hb; cbn in H1, H2; [destruct H1 as [<-|[]]; contradiction|contradiction]).
    specialize (S12 HD). apply (shape_app [] _ _ _ _ _ _ _ _ (voids_shape v s HV) S12 W); [exact HXw|intros ? []].
  - cbn [gen_sub] in E. cbn [fvars fx] in *. destruct (gen_sub kd [] l s) as (c2, s2) eqn:E2. injection E as <- <-.
    assert (S2 : shape (wr_aux hb l) ([] ++ fvars l) s s2 c2) by (apply IH; auto; intros m []).
    assert (HXw : forall x, In x (wr_aux hb l) -> N0 <= x < nxt s) by (intros x Hx; destruct hb; cbn in Hx; [apply (HX x Hx)|contradiction]).
    assert (S12 := shape_app [] _ _ _ _ _ _ _ _ (shape_other (i_unify_structure f n) s) S2 W HXw ltac:(intros ? [])). apply (shape_app [] _ _ _ _ _ _ _ _ (voids_shape v s HV) S12 W); [exact HXw|intros ? []].
Qed.

(** ** Terms *)
Lemma gen_lst_shape : forall (g : tm -> reg -> st -> option (list inst * st)) (tg : reg -> list nat) (Pre : st -> reg * tm -> Prop) l,
  (forall s p, Pre s p -> forall x, In x (tg (fst p)) -> N0 <= x < nxt s) ->
  (forall X Vs s s' c p, shape X Vs s s' c -> wfs s -> Pre s p -> Pre s' p) ->
  (forall p, In p l -> forall s c s', Pre s p -> wfs s -> g (snd p) (fst p) s = Some (c, s') -> shape (tg (fst p)) (vars (snd p)) s s' c) ->
  forall s c s', gen_lst g l s = Some (c, s') -> wfs s -> (forall p, In p l -> Pre s p) -> NoDup (flat_map (fun p => tg (fst p)) l) ->
  shape (flat_map (fun p => tg (fst p)) l) (lvars (map snd l)) s s' c.
Proof.
  intros g tg Pre l HX HM. induction l as [|(x, t) l IH]; intros HG s c s' E W HP ND; cbn [gen_lst] in E.
  - injection E as <- <-. apply shape_nil.
  - destruct (g t x s) as [(c1, s1)|] eqn:E1; [|discriminate E]. destruct (gen_lst g l s1) as [(c2, s2)|] eqn:E2; [|discriminate E]. injection E as <- <-.
    pose proof (HG (x, t) (or_introl eq_refl) s c1 s1 (HP _ (or_introl eq_refl)) W E1) as S1. cbn [fst snd] in S1. cbn [flat_map fst] in *.
    assert (XS : forall z, In z (tg x) -> N0 <= z < nxt s) by (apply (HX s (x, t)); apply HP; left; reflexivity).
    assert (W1 : wfs s1) by (apply (shape_wfs _ _ _ _ _ S1 W); intros z Hz; apply XS; exact Hz).
    apply NoDup_app_remove_l in ND as ND2.
    assert (S2 : shape (flat_map (fun p => tg (fst p)) l) (lvars (map snd l)) s1 s2 c2).
    { apply (IH ltac:(intros p Hp; apply HG; right; exact Hp) _ _ _ E2 W1); [|exact ND2]. intros p Hp. apply (HM _ _ _ _ _ _ S1 W). apply HP. right. exact Hp. }
    apply (shape_app _ _ _ _ _ _ _ _ _ S1 S2 W).
    + intros z Hz. rewrite in_app_iff in Hz. destruct Hz as [Hz|Hz]; [apply XS; exact Hz|]. apply in_flat_map in Hz. destruct Hz as (p & Hp & Hz). apply (HX s p (HP p (or_intror Hp)) z Hz).
    + intros z H1 H2. clear - ND H1 H2. induction (tg x) as [|b l0 IHl]; [contradiction|]. cbn in ND. inversion ND; subst. destruct H1 as [->|H1]; [|auto]. apply H3. apply in_app_iff. auto.
Qed.
Definition tgt_ok (s : st) (x : reg) : Prop := forall t, x = T t -> N0 <= t < nxt s.
Definition lvl (l : list nat) : Prop := forall n, In n l -> n < N0.
Lemma auxs_fst : forall ax, map fst (auxs ax) = map T (map fst ax).
Proof. intros ax. unfold auxs. rewrite !map_map. reflexivity. Qed.
Lemma auxs_snd : forall ax, map snd (auxs ax) = map snd ax.
Proof. intros ax. unfold auxs. rewrite !map_map. reflexivity. Qed.
Lemma lvars_in : forall l t n, In t l -> In n (vars t) -> In n (lvars l).
Proof. intros l t n H1 H2. unfold lvars. apply in_flat_map. exists t. auto. Qed.
Lemma vars_Tf : forall f l, vars (Tf f l) = lvars l.
Proof. reflexivity. Qed.
Lemma wfs_known : forall s n, wfs s -> known s n -> n < nxt s.
Proof. intros s n (_ & W) K. destruct (le_lt_dec (nxt s) n) as [Q|Q]; [exfalso; apply K; apply W; exact Q|exact Q]. Qed.

Lemma gen_unif_shape : forall k t x s c s', gen_unif fl kd k t x s = Some (c, s') -> wfs s -> lvl (vars t) -> tgt_ok s x -> shape [] (vars t) s s' c.
Proof.
  induction k as [|k IH]; intros t x s c s' E W HV HX.
  - destruct t as [n|b|f l]; cbn in E; [| |discriminate E].
    + injection E as E. apply (unif_var_shape n x); [exact E|apply HV; left; reflexivity|]. intros t Q. apply (HX t Q).
    + injection E as <- <-. apply shape_get.
  - destruct t as [n|b|f l]; cbn [gen_unif] in E.
    + injection E as E. apply (unif_var_shape n x); [exact E|apply HV; left; reflexivity|]. intros t Q. apply (HX t Q).
    + injection E as <- <-. apply shape_get.
    + destruct (flat fl true (Tf f l) s) as ((fa, ax), s1) eqn:EF. apply flat_Flat in EF. destruct (gen_sub kd [] fa s1) as (c1, s2) eqn:ES.
      destruct (gen_lst (gen_unif fl kd k) (auxs ax) s2) as [(c2, s3)|] eqn:EL; [|discriminate E]. injection E as <- <-.
      destruct (Flat_shape _ _ _ _ _ _ EF) as (F1 & F2 & F3 & F4 & F5 & F6 & F7). destruct (Flat_inf _ _ _ _ _ _ EF W) as (W1 & F8 & F9).
      assert (HP : forall n, In n (fvars fa ++ lvars (map snd ax)) <-> In n (lvars l)) by (intros n; split; apply Permutation_in; [exact F6|symmetry; exact F6]).
      assert (HXX : forall y, In y (map fst ax) -> nxt s <= y < nxt s1) by (intros y Hy; rewrite F4 in Hy; apply in_seq in Hy; lia).
      destruct W as (W2 & W3).
      assert (S1 : shape (wr_aux true fa) ([] ++ fvars fa) s1 s2 c1).
      { apply (gen_sub_shape true fa [] _ _ _ ES W1); [|intros n []| |].
        - intros n Hn. apply HV. rewrite vars_Tf. apply HP. apply in_app_iff. auto.
        - intros y Hy. rewrite F1 in Hy. split; [specialize (HXX y Hy); lia|apply F9; exact Hy].
        - rewrite F1, F4. apply seq_NoDup. }
      cbn [app wr_aux] in S1. rewrite F1 in S1. assert (W4 : wfs s2) by (apply (shape_wfs _ _ _ _ _ S1 W1); intros y Hy; apply (HXX y Hy)).
      pose proof (sh_nxt _ _ _ _ _ S1) as L12.
      assert (S2 : shape (flat_map (fun p : reg * tm => []) (auxs ax)) (lvars (map snd (auxs ax))) s2 s3 c2).
      { apply (gen_lst_shape (gen_unif fl kd k) (fun _ => []) (fun s p => lvl (vars (snd p)) /\ tgt_ok s (fst p)) (auxs ax)) with (s := s2).
        - intros s0 p _ y [].
        - intros X Vs sa sb cc p Sh _ (Q1 & Q2). split; [exact Q1|]. intros u Hu. pose proof (sh_nxt _ _ _ _ _ Sh). specialize (Q2 u Hu). lia.
        - intros p _ sa cc sb (Q1 & Q2) Wa Ea. apply (IH _ _ _ _ _ Ea Wa Q1 Q2).
        - exact EL.
        - exact W4.
        - intros p Hp. unfold auxs in Hp. apply in_map_iff in Hp. destruct Hp as ((y, u) & <- & Hp). cbn [fst snd]. split.
          + intros n Hn. apply HV. rewrite vars_Tf. apply HP. apply in_app_iff. right. apply (lvars_in _ u); [|exact Hn]. apply (in_map snd) in Hp. exact Hp.
          + intros z Hz. injection Hz as <-. apply (in_map fst) in Hp. specialize (HXX y Hp). lia.
        - clear. induction (auxs ax); [constructor|exact IHl]. }
      rewrite auxs_snd in S2. replace (flat_map (fun _ : reg * tm => []) (auxs ax)) with (@nil nat) in S2 by (clear; induction (auxs ax); [reflexivity|exact IHl]).
      assert (S12 := shape_app _ _ _ _ _ _ _ _ _ S1 S2 W1). rewrite app_nil_r in S12. specialize (S12 ltac:(intros y Hy; specialize (HXX y Hy); lia) ltac:(intros ? ? [])).
      assert (S02 : shape [] (fvars fa ++ lvars (map snd ax)) s s3 (c1 ++ c2)).
      { apply (shape_flat [] (map fst ax) _ s s1 s3); [exact S12|lia|exact W2|exact F8|exact W3|intros n Kn; apply (wfs_known _ _ W1 Kn)|exact HXX]. }
      assert (S3 := shape_app [] [] [] _ _ _ _ _ _ (shape_get (i_get_structure f (length l)) x s) S02 (conj W2 W3) ltac:(intros ? []) ltac:(intros ? [])).
      apply (shape_incl _ _ _ _ _ _ S3). intros n. cbn [app]. rewrite vars_Tf. apply HP.
Qed.
Definition lp_ok (lp : bool) (s : st) (l : list nat) : Prop := lp = true -> forall n y, In n l -> kd n = KY y -> known s n.
Lemma lp_ok_mono : forall lp X Vs s s' c l, shape X Vs s s' c -> lp_ok lp s l -> lp_ok lp s' l.
Proof. intros lp X Vs s s' c l Sh H E n y Hn EK. apply (known_mono _ _ _ _ _ _ Sh). apply (H E n y Hn EK). Qed.
Lemma shape_meta : forall k x1 x s, shape (tnum x) [] s s [put_meta_term k x1 x].
Proof.
  intros k x1 x s. constructor; try contradiction; auto.
  - intros i [<-|[]]. reflexivity. - intros n. unfold tw. cbn. rewrite app_nil_r. auto. - unfold tw. cbn. rewrite app_nil_r. destruct x; cbn; constructor; [intros []|constructor]. - intros i z y [<-|[]]. cbn. discriminate.
Qed.
Definition as_meta (f : nat) (l : list tm) : option (nat * tm) := if f =? mt then match l with [Tc (Catm m); g] => Some (m, g) | _ => None end else None.
Lemma as_meta_some : forall f l m g, as_meta f l = Some (m, g) -> f = mt /\ l = [Tc (Catm m); g].
Proof.
  intros f l m g E. unfold as_meta in E. destruct (Nat.eqb_spec f mt) as [->|]; [|discriminate E]. split; [reflexivity|].
  destruct l as [|[?|[]|] [|? [|]]]; try discriminate E. injection E as <- <-. reflexivity.
Qed.
Lemma gen_load_Tf : forall lp k f l x s, gen_load fl kd lp (S k) (Tf f l) x s =
  match as_meta f l with
  | Some (m, g) => let (x1, s) := new_reg s in match gen_load fl kd lp k g (T x1) s with Some (c1, s) => Some (c1 ++ [put_meta_term (i_module m) (T x1) x], s) | None => None end
  | None => let '(fa, ax, s) := flat fl false (Tf f l) s in
    match gen_lst (gen_load fl kd lp k) (auxs ax) s with
    | Some (c1, s) => let (c2, s) := gen_sub kd [] fa s in Some (c1 ++ put_arg (i_put_structure f (length l)) x :: c2, s)
    | None => None end
  end.
Proof. reflexivity. Qed.
Lemma new_reg_wfs : forall s, wfs s -> wfs (snd (new_reg s)).
Proof. intros s (W1 & W2). split; cbn; [lia|]. intros n Hn. apply W2. lia. Qed.
Lemma gen_load_shape : forall lp k t x s c s', gen_load fl kd lp k t x s = Some (c, s') -> wfs s -> lvl (vars t) -> tgt_ok s x -> lp_ok lp s (vars t) -> shape (tnum x) (vars t) s s' c.
Proof.
  intros lp. induction k as [|k IH]; intros t x s c s' E W HV HX HL.
  - destruct t as [n|b|f l]; cbn in E; [| |discriminate E].
    + injection E as E. apply (load_var_shape lp n x); [exact E|apply HV; left; reflexivity| |]. { intros t Q. apply (HX t Q). } intros Q y EK. apply (HL Q n y (or_introl eq_refl) EK).
    + injection E as <- <-. apply shape_put.
  - destruct t as [n|b|f l].
    + injection E as E. apply (load_var_shape lp n x); [exact E|apply HV; left; reflexivity| |]. { intros t Q. apply (HX t Q). } intros Q y EK. apply (HL Q n y (or_introl eq_refl) EK).
    + injection E as <- <-. apply shape_put.
    + rewrite gen_load_Tf in E. pose proof W as (W2 & W3).
      assert (XT : forall z, In z (tnum x) -> N0 <= z < nxt s) by (intros z Hz; destruct x; cbn in Hz; [contradiction|]; destruct Hz as [->|[]]; apply HX; reflexivity).
      destruct (as_meta f l) as [(m, g)|] eqn:EM.
      * apply as_meta_some in EM. destruct EM as (-> & ->). destruct (new_reg s) as (x1, s1) eqn:EN. destruct (gen_load fl kd lp k g (T x1) s1) as [(c1, s2)|] eqn:E1; [|discriminate E]. injection E as <- <-.
        assert (W1 : wfs s1) by (pose proof (new_reg_wfs s W) as Q; rewrite EN in Q; exact Q). injection EN as <- <-. cbn [nxt] in *.
        assert (VG : forall n, In n (vars g) <-> In n (lvars [Tc (Catm m); g])) by (intros n; unfold lvars; cbn; rewrite app_nil_r; tauto).
        assert (S1 : shape (tnum (T (nxt s))) (vars g) (St (S (nxt s)) (inf s)) s2 c1).
        { apply (IH _ _ _ _ _ E1 W1); [intros n Hn; apply HV; apply VG; exact Hn|intros z Hz; injection Hz as <-; cbn; lia|]. intros Q n y Hn EK. apply (HL Q n y); [apply VG; exact Hn|exact EK]. }
        cbn [tnum] in S1. pose proof (sh_nxt _ _ _ _ _ S1) as L. cbn in L.
        assert (S2 := shape_app [nxt s] (tnum x) _ _ _ _ _ _ _ S1 (shape_meta (i_module m) (T (nxt s)) x s2) W1).
        assert (S3 : shape ([nxt s] ++ tnum x) (vars g ++ []) (St (S (nxt s)) (inf s)) s2 (c1 ++ [put_meta_term (i_module m) (T (nxt s)) x])).
        { apply S2; cbn [nxt].
          - intros z Hz. cbn in Hz. destruct Hz as [<-|Hz]; [lia|]. specialize (XT z Hz). lia.
          - intros z [<-|[]] Hz. specialize (XT (nxt s) Hz). lia. }
        assert (S4 : shape (tnum x ++ [nxt s]) (vars g ++ []) (St (S (nxt s)) (inf s)) s2 (c1 ++ [put_meta_term (i_module m) (T (nxt s)) x])).
        { apply shape_swap. exact S3. }
        rewrite app_nil_r in S4. apply (shape_incl _ (vars g)); [|intros n; rewrite vars_Tf; apply VG].
        apply (shape_flat (tnum x) [nxt s] _ s (St (S (nxt s)) (inf s)) s2); [exact S4|cbn; lia|exact W2|auto|exact W3|intros n Kn; apply (wfs_known _ _ W1 Kn)|intros y [<-|[]]; cbn; lia].
      * destruct (flat fl false (Tf f l) s) as ((fa, ax), s1) eqn:EF. apply flat_Flat in EF.
        destruct (gen_lst (gen_load fl kd lp k) (auxs ax) s1) as [(c1, s2)|] eqn:EL; [|discriminate E]. destruct (gen_sub kd [] fa s2) as (c2, s3) eqn:ES. injection E as <- <-.
        destruct (Flat_shape _ _ _ _ _ _ EF) as (F1 & F2 & F3 & F4 & F5 & F6 & F7). destruct (Flat_inf _ _ _ _ _ _ EF W) as (W1 & F8 & F9).
        assert (HP : forall n, In n (fvars fa ++ lvars (map snd ax)) <-> In n (lvars l)) by (intros n; split; apply Permutation_in; [exact F6|symmetry; exact F6]).
        assert (HXX : forall y, In y (map fst ax) -> nxt s <= y < nxt s1) by (intros y Hy; rewrite F4 in Hy; apply in_seq in Hy; lia).
        assert (TGX : flat_map (fun p : reg * tm => tnum (fst p)) (auxs ax) = map fst ax) by (clear; induction ax as [|(y, u) ax IHa]; cbn; [reflexivity|f_equal; exact IHa]).
        assert (KM : forall n, n < N0 -> known s n -> known s1 n) by (intros n Hn Kn; unfold known; rewrite F8 by lia; exact Kn).
        assert (S1 : shape (flat_map (fun p : reg * tm => tnum (fst p)) (auxs ax)) (lvars (map snd (auxs ax))) s1 s2 c1).
        { apply (gen_lst_shape (gen_load fl kd lp k) tnum (fun s p => lvl (vars (snd p)) /\ tgt_ok s (fst p) /\ lp_ok lp s (vars (snd p))) (auxs ax)) with (s := s1).
          - intros s0 p (_ & Q & _) y Hy. destruct (fst p) eqn:EE; cbn in Hy; [contradiction|]. destruct Hy as [->|[]]. apply Q. reflexivity.
          - intros X Vs sa sb cc p Sh _ (Q1 & Q2 & Q3). split; [exact Q1|]. split; [|apply (lp_ok_mono _ _ _ _ _ _ _ Sh Q3)]. intros u Hu. pose proof (sh_nxt _ _ _ _ _ Sh). specialize (Q2 u Hu). lia.
          - intros p _ sa cc sb (Q1 & Q2 & Q3) Wa Ea. apply (IH _ _ _ _ _ Ea Wa Q1 Q2 Q3).
          - exact EL.
          - exact W1.
          - intros p Hp. unfold auxs in Hp. apply in_map_iff in Hp. destruct Hp as ((y, u) & <- & Hp). cbn [fst snd].
            assert (VL : forall n, In n (vars u) -> In n (lvars l)). { intros n Hn. apply HP. apply in_app_iff. right. apply (lvars_in _ u); [|exact Hn]. apply (in_map snd) in Hp. exact Hp. }
            split; [intros n Hn; apply HV; rewrite vars_Tf; auto|]. split.
            + intros z Hz. injection Hz as <-. apply (in_map fst) in Hp. specialize (HXX y Hp). lia.
            + intros Q n y0 Hn EK. apply KM; [apply HV; rewrite vars_Tf; auto|]. apply (HL Q n y0); [rewrite vars_Tf; auto|exact EK].
          - rewrite TGX, F4. apply seq_NoDup. }
        rewrite auxs_snd, TGX in S1. assert (W4 : wfs s2) by (apply (shape_wfs _ _ _ _ _ S1 W1); intros y Hy; apply (HXX y Hy)).
        pose proof (sh_nxt _ _ _ _ _ S1) as L12.
        assert (S2 : shape (wr_aux false fa) ([] ++ fvars fa) s2 s3 c2).
        { apply (gen_sub_shape false fa [] _ _ _ ES W4); [|intros n []| |].
          - intros n Hn. apply HV. rewrite vars_Tf. apply HP. apply in_app_iff. auto.
          - intros y Hy. rewrite F1 in Hy. split; [specialize (HXX y Hy); lia|]. rewrite (sh_mono _ _ _ _ _ S1); [apply (F9 y Hy)|unfold known; rewrite (F9 y Hy); discriminate].
          - rewrite F1, F4. apply seq_NoDup. }
        cbn [app wr_aux] in S2.
        assert (S3 := shape_app (tnum x) [] [] _ _ _ _ _ _ (shape_put (i_put_structure f (length l)) x s2) S2 W4). rewrite app_nil_r in S3. cbn [app] in S3.
        specialize (S3 ltac:(intros z Hz; specialize (XT z Hz); lia) ltac:(intros ? ? [])).
        assert (S4 := shape_app _ _ _ _ _ _ _ _ _ S1 S3 W1). specialize (S4 ltac:(intros z Hz; rewrite in_app_iff in Hz; destruct Hz as [Hz|Hz]; [specialize (HXX z Hz); lia|specialize (XT z Hz); lia]) ltac:(intros z H1 H2; specialize (HXX z H1); specialize (XT z H2); lia)).
        assert (S5 : shape (tnum x ++ map fst ax) (lvars (map snd ax) ++ fvars fa) s1 s3 (c1 ++ put_arg (i_put_structure f (length l)) x :: c2)).
        { apply shape_swap. exact S4. }
        apply (shape_incl _ (lvars (map snd ax) ++ fvars fa)); [|intros n; rewrite vars_Tf, <- HP, !in_app_iff; tauto].
        apply (shape_flat (tnum x) (map fst ax) _ s s1 s3); [exact S5|lia|exact W2|exact F8|exact W3|intros n Kn; apply (wfs_known _ _ W1 Kn)|exact HXX].
Qed.
(** ** Totality *)
Lemma gen_lst_total : forall (g : tm -> reg -> st -> option (list inst * st)) l, (forall p, In p l -> forall s, g (snd p) (fst p) s <> None) -> forall s, gen_lst g l s <> None.
Proof.
  intros g. induction l as [|(x, t) l IH]; intros H s; cbn; [discriminate|]. specialize (H (x, t) (or_introl eq_refl)) as H0. specialize (H0 s). cbn in H0.
  destruct (g t x s) as [(c1, s1)|]; [|congruence]. assert (Q := IH ltac:(intros p Hp; apply H; right; exact Hp) s1). destruct (gen_lst g l s1) as [(c2, s2)|]; [discriminate|congruence].
Qed.
Lemma auxs_depth : forall k ax l f, (forall t, In t (map snd ax) -> depth t <= ldepth l) -> depth (Tf f l) <= S k -> forall p, In p (auxs ax) -> depth (snd p) <= k.
Proof.
  intros k ax l f H L p Hp. assert (Q : In (snd p) (map snd (auxs ax))) by (apply in_map; exact Hp). rewrite auxs_snd in Q. specialize (H _ Q). change (depth (Tf f l)) with (S (ldepth l)) in L. lia.
Qed.
Lemma gen_unif_total : forall k t x s, depth t <= k -> gen_unif fl kd k t x s <> None.
Proof.
  induction k as [|k IH]; intros [n|b|f l] x s L; cbn [gen_unif]; try discriminate; [cbn in L; lia|].
  destruct (flat fl true (Tf f l) s) as ((fa, ax), s1) eqn:EF. apply flat_Flat in EF. destruct (Flat_shape _ _ _ _ _ _ EF) as (_ & _ & _ & _ & _ & _ & F7). destruct (gen_sub kd [] fa s1) as (c1, s2).
  assert (Q : gen_lst (gen_unif fl kd k) (auxs ax) s2 <> None) by (apply gen_lst_total; intros p Hp s0; apply IH; apply (auxs_depth k ax l f F7 L p Hp)).
  destruct (gen_lst (gen_unif fl kd k) (auxs ax) s2) as [(c2, s3)|]; [discriminate|congruence].
Qed.
Lemma gen_load_total : forall lp k t x s, depth t <= k -> gen_load fl kd lp k t x s <> None.
Proof.
  intros lp. induction k as [|k IH]; intros [n|b|f l] x s L; try discriminate; [cbn in L; lia|]. rewrite gen_load_Tf. destruct (as_meta f l) as [(m, g)|] eqn:EM.
  - apply as_meta_some in EM. destruct EM as (-> & ->). destruct (new_reg s) as (x1, s1). assert (Q : gen_load fl kd lp k g (T x1) s1 <> None) by (apply IH; cbn in L; lia).
    destruct (gen_load fl kd lp k g (T x1) s1) as [(c1, s2)|]; [discriminate|congruence].
  - destruct (flat fl false (Tf f l) s) as ((fa, ax), s1) eqn:EF. apply flat_Flat in EF. destruct (Flat_shape _ _ _ _ _ _ EF) as (_ & _ & _ & _ & _ & _ & F7).
    assert (Q : gen_lst (gen_load fl kd lp k) (auxs ax) s1 <> None) by (apply gen_lst_total; intros p Hp s0; apply IH; apply (auxs_depth k ax l f F7 L p Hp)).
    destruct (gen_lst (gen_load fl kd lp k) (auxs ax) s1) as [(c1, s2)|]; [|congruence]. destruct (gen_sub kd [] fa s2). discriminate.
Qed.

(** ** The arguments which are written *)
Definition anum (x : reg) : list nat := match x with A n => [n] | T _ => [] end.
Definition aw (l : list inst) : list nat := flat_map anum (flat_map writes_of l).
Lemma aw_app : forall l1 l2, aw (l1 ++ l2) = aw l1 ++ aw l2.
Proof. intros. unfold aw. rewrite !flat_map_app. reflexivity. Qed.
Lemma aw_cons : forall i l, aw (i :: l) = flat_map anum (writes_of i) ++ aw l.
Proof. intros. unfold aw. cbn. rewrite flat_map_app. reflexivity. Qed.
Lemma aw_in : forall n l, In n (aw l) <-> In (A n) (flat_map writes_of l).
Proof.
  intros n l. unfold aw. rewrite in_flat_map. split.
  - intros ([a|t] & H1 & H2); cbn in H2; [|contradiction]. destruct H2 as [->|[]]. exact H1.
  - intros H. exists (A n). cbn. auto.
Qed.
Lemma sub_var_aw : forall n k s, aw (fst (sub_var n k s)) = [].
Proof. intros n k s. unfold sub_var. destruct (inf s n) as [[]|], k; reflexivity. Qed.
Lemma voids_aw : forall v, aw (voids v) = [].
Proof. destruct v; reflexivity. Qed.
Lemma gen_sub_aw : forall l v s, aw (fst (gen_sub kd v l s)) = [].
Proof.
  induction l as [|[n|b|x t] l IH|f n l IH]; intros v s; cbn [gen_sub].
  - apply voids_aw.
  - destruct (is_void kd n); [apply IH|]. pose proof (sub_var_aw n (kd n) s) as Q. destruct (sub_var n (kd n) s) as (c1, s1). specialize (IH [] s1). destruct (gen_sub kd [] l s1) as (c2, s2). cbn [fst] in *. rewrite !aw_app, voids_aw, Q, IH. reflexivity.
  - specialize (IH [] s). destruct (gen_sub kd [] l s) as (c2, s2). cbn [fst] in *. rewrite aw_app, aw_cons, voids_aw, IH. reflexivity.
  - pose proof (sub_var_aw x KX s) as Q. destruct (sub_var x KX s) as (c1, s1). specialize (IH [] s1). destruct (gen_sub kd [] l s1) as (c2, s2). cbn [fst] in *. rewrite !aw_app, voids_aw, Q, IH. reflexivity.
  - specialize (IH [] s). destruct (gen_sub kd [] l s) as (c2, s2). cbn [fst] in *. rewrite aw_app, aw_cons, voids_aw, IH. reflexivity.
Qed.
Lemma gen_lst_aw : forall (g : tm -> reg -> st -> option (list inst * st)) (tg : reg -> list nat) (Pre : st -> reg * tm -> Prop) l,
  (forall p, In p l -> forall s c s', Pre s p -> g (snd p) (fst p) s = Some (c, s') -> aw c = tg (fst p) /\ forall p, Pre s p -> Pre s' p) ->
  forall s c s', gen_lst g l s = Some (c, s') -> (forall p, In p l -> Pre s p) -> aw c = flat_map (fun p => tg (fst p)) l.
Proof.
  intros g tg Pre. induction l as [|(x, t) l IH]; intros HG s c s' E HP; cbn [gen_lst] in E.
  - injection E as <- <-. reflexivity.
  - destruct (g t x s) as [(c1, s1)|] eqn:E1; [|discriminate E]. destruct (gen_lst g l s1) as [(c2, s2)|] eqn:E2; [|discriminate E]. injection E as <- <-.
    destruct (HG (x, t) (or_introl eq_refl) s c1 s1 (HP _ (or_introl eq_refl)) E1) as (Q1 & Q2). rewrite aw_app, Q1. cbn. f_equal.
    apply (IH ltac:(intros p Hp; apply HG; right; exact Hp) _ _ _ E2). intros p Hp. apply Q2. apply HP. right. exact Hp.
Qed.
Lemma gen_unif_aw : forall k t x s c s', gen_unif fl kd k t x s = Some (c, s') -> aw c = [].
Proof.
  assert (HV : forall n x s, aw (fst (unif_var kd n x s)) = []) by (intros n x s; unfold unif_var; destruct (inf s n), (kd n); reflexivity).
  induction k as [|k IH]; intros [n|b|f l] x s c s' E; cbn [gen_unif] in E; try discriminate E; try (injection E as <- <-; reflexivity); try (injection E as E; specialize (HV n x s); rewrite E in HV; exact HV).
  destruct (flat fl true (Tf f l) s) as ((fa, ax), s1). pose proof (gen_sub_aw fa [] s1) as Q. destruct (gen_sub kd [] fa s1) as (c1, s2).
  destruct (gen_lst (gen_unif fl kd k) (auxs ax) s2) as [(c2, s3)|] eqn:EL; [|discriminate E]. injection E as <- <-. cbn [fst] in Q. rewrite aw_cons, aw_app, Q.
  rewrite (gen_lst_aw _ (fun _ => []) (fun _ _ => True) _ ltac:(intros p _ sa ca sb _ Ea; split; [apply (IH _ _ _ _ _ Ea)|auto]) _ _ _ EL); [|auto]. cbn. clear. induction (auxs ax); [reflexivity|exact IHl].
Qed.
Lemma gen_load_aw : forall lp k t x s c s', gen_load fl kd lp k t x s = Some (c, s') -> wfs s -> lvl (vars t) -> tgt_ok s x -> lp_ok lp s (vars t) -> aw c = anum x.
Proof.
  intros lp. 
  assert (HV : forall n x s, lp_ok lp s [n] -> aw (fst (load_var kd lp n x s)) = anum x).
  { intros n x s HL. unfold load_var. destruct (inf s n) eqn:EI; [destruct (kd n); destruct x; reflexivity|]. destruct (kd n) eqn:EK; [destruct x; reflexivity|destruct x; reflexivity|].
    destruct lp; [exfalso; apply (HL eq_refl n y (or_introl eq_refl) EK); exact EI|destruct x; reflexivity]. }
  induction k as [|k IH]; intros t x s c s' E W HN HX HL.
  - destruct t as [n|b|f l]; cbn in E; [| |discriminate E]; [injection E as E; specialize (HV n x s HL); rewrite E in HV; exact HV|injection E as <- <-; destruct x; reflexivity].
  - destruct t as [n|b|f l]; [injection E as E; specialize (HV n x s HL); rewrite E in HV; exact HV|injection E as <- <-; destruct x; reflexivity|].
    rewrite gen_load_Tf in E. destruct (as_meta f l) as [(m, g)|] eqn:EM.
    + apply as_meta_some in EM. destruct EM as (-> & ->). destruct (new_reg s) as (x1, s1) eqn:EN. destruct (gen_load fl kd lp k g (T x1) s1) as [(c1, s2)|] eqn:E1; [|discriminate E]. injection E as <- <-.
      assert (W1 : wfs s1) by (pose proof (new_reg_wfs s W) as Q; rewrite EN in Q; exact Q). destruct W as (W2 & _). injection EN as <- <-. cbn [nxt] in *.
      assert (VG : forall n, In n (vars g) <-> In n (lvars [Tc (Catm m); g])) by (intros n; unfold lvars; cbn; rewrite app_nil_r; tauto).
      rewrite aw_app, (IH _ _ _ _ _ E1 W1); [destruct x; reflexivity|intros n Hn; apply HN; apply VG; exact Hn|intros z Hz; injection Hz as <-; cbn; lia|]. intros Q n y Hn EK. apply (HL Q n y); [apply VG; exact Hn|exact EK].
    + destruct (flat fl false (Tf f l) s) as ((fa, ax), s1) eqn:EF. apply flat_Flat in EF.
      destruct (gen_lst (gen_load fl kd lp k) (auxs ax) s1) as [(c1, s2)|] eqn:EL; [|discriminate E]. pose proof (gen_sub_aw fa [] s2) as QS. destruct (gen_sub kd [] fa s2) as (c2, s3) eqn:ES. injection E as <- <-. cbn [fst] in QS.
      destruct (Flat_shape _ _ _ _ _ _ EF) as (F1 & F2 & F3 & F4 & F5 & F6 & F7). destruct (Flat_inf _ _ _ _ _ _ EF W) as (W1 & F8 & F9). destruct W as (W2 & W3).
      assert (HP : forall n, In n (lvars (map snd ax)) -> In n (lvars l)) by (intros n Hn; apply (Permutation_in _ F6); apply in_app_iff; auto).
      rewrite aw_app, aw_cons, QS, app_nil_r. rewrite (gen_lst_aw (gen_load fl kd lp k) anum (fun s p => wfs s /\ lvl (vars (snd p)) /\ tgt_ok s (fst p) /\ lp_ok lp s (vars (snd p))) (auxs ax)) with (s := s1) (s' := s2).
      * replace (flat_map (fun p : reg * tm => anum (fst p)) (auxs ax)) with (@nil nat) by (clear; induction ax as [|p ax IHa]; [reflexivity|exact IHa]). destruct x; reflexivity.
      * intros p _ sa cc sb (Q0 & Q1 & Q2 & Q3) Ea. split; [apply (IH _ _ _ _ _ Ea Q0 Q1 Q2 Q3)|]. pose proof (gen_load_shape _ _ _ _ _ _ _ Ea Q0 Q1 Q2 Q3) as Sh. intros p0 (R0 & R1 & R2 & R3).
        split; [apply (shape_wfs _ _ _ _ _ Sh R0); intros z Hz; destruct (fst p); cbn in Hz; [contradiction|]; destruct Hz as [->|[]]; apply Q2; reflexivity|]. split; [exact R1|]. split; [|apply (lp_ok_mono _ _ _ _ _ _ _ Sh R3)].
        intros u Hu. pose proof (sh_nxt _ _ _ _ _ Sh). specialize (R2 u Hu). lia.
      * exact EL.
      * intros p Hp. unfold auxs in Hp. apply in_map_iff in Hp. destruct Hp as ((y, u) & <- & Hp). cbn [fst snd]. split; [exact W1|].
        assert (VL : forall n, In n (vars u) -> In n (lvars l)). { intros n Hn. apply HP. apply (lvars_in _ u); [|exact Hn]. apply (in_map snd) in Hp. exact Hp. }
        split; [intros n Hn; apply HN; rewrite vars_Tf; auto|]. split.
        -- intros z Hz. injection Hz as <-. apply (in_map fst) in Hp. cbn in Hp. rewrite F4 in Hp. apply in_seq in Hp. lia.
        -- intros Q n y0 Hn EK. assert (n < N0) by (apply HN; rewrite vars_Tf; auto). unfold known. rewrite F8 by lia. apply (HL Q n y0); [rewrite vars_Tf; auto|exact EK].
Qed.
End Shape.
