Require Import ZArith List Bool Lia Sorting.Sorted.
Require Import Verif.Label_Model Verif.Label_Spec.
Import ListNotations.
Open Scope Z_scope.

Lemma wf_nodup D : wf D -> NoDup D.
Proof.
  intros (S & _ & _). induction S as [|v D S IH F]; constructor; [|exact IH].
  intros J. rewrite Forall_forall in F. specialize (F v J). lia.
Qed.
Lemma shrink (D D' : dom) x : wf D' -> incl D' D -> In x D -> ~ In x D' -> (length D' < length D)%nat.
Proof.
  intros W I J N. apply wf_nodup in W. change (length (x :: D') <= length D)%nat. apply NoDup_incl_length; [constructor; auto|].
  intros y [<-|K]; auto.
Qed.
Lemma sorted_filter f D : StronglySorted Z.lt D -> StronglySorted Z.lt (filter f D).
Proof.
  intros S. induction S as [|v D S IH F]; [constructor|]. cbn. destruct (f v); [|exact IH]. constructor; [exact IH|].
  rewrite Forall_forall in *. intros z J. apply filter_In in J as [J _]. auto.
Qed.
Lemma wf_filter f D : wf D -> filter f D <> [] -> wf (filter f D).
Proof.
  intros (S & _ & B) N. split; [apply sorted_filter, S|]. split; [exact N|]. intros z J. apply filter_In in J as [J _]. auto.
Qed.
Lemma wf_one D z : wf D -> In z D -> wf [z].
Proof. intros (_ & _ & B) J. split; [constructor; constructor|]. split; [discriminate|]. intros y [<-|[]]. auto. Qed.
Lemma in_last (D : list Z) d : D <> [] -> In (last D d) D.
Proof. induction D as [|x D IH]; [congruence|]. intros _. destruct D as [|y D]; [left; reflexivity|]. right. apply IH. discriminate. Qed.

Section S.
Variable P : Z -> Prop.
Variable prune : dom -> option dom.
Variable random : dom -> nat.
Hypothesis PO : prune_ok P prune.
Hypothesis RO : forall D, (random D < length D)%nat \/ D = [].
Notation tell := (tell prune).
Notation assign := (assign prune).
Notation Select := (Select_Value random).
Notation Ind := (Indomain_2 prune random).
Notation Alt := (Indomain_Alt prune random).

Lemma tell_ok f D : wf D -> match tell f D with
  | None => forall z, In z D -> f z = true -> ~ P z
  | Some D' => wf D' /\ (forall z, In z D' -> In z D /\ f z = true) /\ (forall z, In z D -> f z = true -> P z -> In z D') /\ (forall w, D' = [w] -> prune [w] = Some [w])
  end.
Proof.
  intros W. unfold Label_Model.tell. destruct (filter f D) as [|x F] eqn:E.
  - intros z J Q _. assert (K : In z (filter f D)) by (apply filter_In; auto). rewrite E in K. destruct K.
  - assert (WF : wf (x :: F)) by (rewrite <- E; apply wf_filter; auto; rewrite E; discriminate).
    specialize (PO _ WF). rewrite <- E in *. destruct (prune (filter f D)) as [D'|].
    + destruct PO as (W' & I & K & O). split; [exact W'|]. split; [intros z J; apply filter_In, I, J|]. split; [|exact O].
      intros z J Q Pz. apply K; auto. apply filter_In; auto.
    + intros z J Q. apply PO, filter_In; auto.
Qed.
Lemma assign_ok D v : wf D -> In v D -> NoDup (assign v) /\ (forall z, In z (assign v) -> z = v /\ prune [z] = Some [z]) /\ (P v -> In v (assign v)).
Proof.
  intros W J. unfold Label_Model.assign. pose proof (PO [v] (wf_one D v W J)) as Q. destruct (prune [v]) as [D'|] eqn:E.
  - destruct Q as (W' & I & K & O). split; [constructor; [intros []|constructor]|]. split; [|intros _; left; reflexivity].
    intros z [<-|[]]. split; [reflexivity|]. destruct D' as [|a D']; [destruct W' as (_ & N & _); congruence|].
    assert (a = v) by (destruct (I a (or_introl eq_refl)) as [<-|[]]; reflexivity). subst a.
    destruct D' as [|b D']; [exact E|]. exfalso. destruct W' as (S & _). inversion S as [|? ? ? F]; subst. inversion F; subst.
    destruct (I b (or_intror (or_introl eq_refl))) as [<-|[]]. lia.
  - split; [constructor|]. split; [intros z []|]. intros Pv. exact (Q v (or_introl eq_refl) Pv).
Qed.
Definition valid (m : Z) : Prop := 0 <= m <= 6.
Lemma nth_in (D : dom) k : (k < length D)%nat -> In (nth k D (-1)) D.
Proof. apply nth_In. Qed.
Lemma select_in m D : valid m -> wf D -> In (Select m D) D \/ length D = 1%nat.
Proof.
  intros V W. pose proof W as (_ & N & _). destruct D as [|x [|y D']]; [congruence|right; reflexivity|]. left. set (D := x :: y :: D') in *.
  unfold Select_Value.
  destruct ((m =? METHOD_MIN) || (m =? METHOD_LIMITS_MIN)) eqn:E1; [left; reflexivity|].
  destruct ((m =? METHOD_MAX) || (m =? METHOD_LIMITS_MAX)) eqn:E2; [apply in_last; discriminate|].
  destruct ((m =? METHOD_BISECT) || (m =? METHOD_MIDDLE)) eqn:E3.
  - pose proof (Nat.div_lt (length D) 2 ltac:(cbn; lia) ltac:(lia)). unfold Ith_Elem. destruct (Nat.div (length D) 2) as [|k] eqn:E.
    + exfalso. apply Nat.div_small_iff in E; [cbn in E; lia|lia].
    + apply nth_in. lia.
  - destruct (m =? METHOD_RANDOM_V) eqn:E4.
    + rewrite Nat.add_1_r. cbn [Ith_Elem]. apply nth_in. destruct (RO D) as [R|R]; [exact R|discriminate].
    + exfalso. unfold valid, METHOD_MIN, METHOD_MAX, METHOD_LIMITS_MIN, METHOD_LIMITS_MAX, METHOD_BISECT, METHOD_MIDDLE, METHOD_RANDOM_V in *.
      rewrite orb_false_iff, !Z.eqb_neq in *. lia.
Qed.
Lemma sorted_nth (D : dom) i j : StronglySorted Z.lt D -> (i < j < length D)%nat -> nth i D (-1) < nth j D (-1).
Proof.
  intros S. revert i j. induction S as [|v D S IH F]; intros i j L; cbn in *; [lia|]. destruct j as [|j]; [lia|]. destruct i as [|i].
  - rewrite Forall_forall in F. apply F, nth_in. lia.
  - apply IH. lia.
Qed.
Lemma select_bisect D : wf D -> (2 <= length D)%nat -> exists z, In z D /\ Select METHOD_BISECT D < z.
Proof.
  intros W L. change (Select METHOD_BISECT D) with (Ith_Elem D (Nat.div (length D) 2)).
  pose proof (Nat.div_lt (length D) 2 ltac:(lia) ltac:(lia)). unfold Ith_Elem. destruct (Nat.div (length D) 2) as [|k] eqn:E.
  - exfalso. apply Nat.div_small_iff in E; lia.
  - exists (nth (S k) D (-1)). split; [apply nth_in; lia|]. apply sorted_nth; [apply W|lia].
Qed.

Definition answers (D : Z -> Prop) (r : option (list Z)) : Prop := exists L, r = Some L /\ enumerates P prune D L.
Lemma none_answers (D : Z -> Prop) : (forall z, D z -> ~ P z) -> answers D (Some []).
Proof. intros N. exists []. split; [reflexivity|]. split; [constructor|]. split; [intros z []|]. intros z J Pz. destruct (N z J Pz). Qed.
Lemma one_answers (D : Z -> Prop) w : D w -> prune [w] = Some [w] -> (forall z, D z -> P z -> z = w) -> answers D (Some [w]).
Proof.
  intros J O N. exists [w]. split; [reflexivity|]. split; [constructor; [intros []|constructor]|]. split; [intros z [<-|[]]; auto|].
  intros z Jz Pz. left. symmetry. auto.
Qed.
Lemma app_answers (D1 D2 D : Z -> Prop) r1 r2 : answers D1 r1 -> answers D2 r2 -> (forall z, D z <-> D1 z \/ D2 z) -> (forall z, D1 z -> D2 z -> False) ->
  answers D (match r1, r2 with Some a, Some b => Some (a ++ b) | _, _ => None end).
Proof.
  intros (L1 & -> & N1 & A1 & C1) (L2 & -> & N2 & A2 & C2) U X. exists (L1 ++ L2). split; [reflexivity|]. split; [|split].
  - clear C1 C2. induction L1 as [|x L1 IH]; [exact N2|]. inversion N1; subst. cbn. constructor.
    + intros K. apply in_app_iff in K as [K|K]; [auto|]. apply (X x); [apply A1; left; reflexivity|apply A2, K].
    + apply IH; auto. intros z J. apply A1. right. exact J.
  - intros z J. apply in_app_iff in J as [J|J]; [destruct (A1 z J)|destruct (A2 z J)]; split; auto; apply U; auto.
  - intros z J Pz. apply in_app_iff. apply U in J as [J|J]; auto.
Qed.
Lemma sub_answers (D' D : Z -> Prop) r : answers D' r -> (forall z, D' z -> D z) -> (forall z, D z -> P z -> D' z) -> answers D r.
Proof.
  intros (L & -> & N & A & C) I K. exists L. split; [reflexivity|]. split; [exact N|]. split; [intros z J; destruct (A z J); auto|]. intros z J Pz. auto.
Qed.
Definition left_for (m value : Z) (D : dom) (z : Z) : Prop := In z D /\ if m =? METHOD_BISECT then value < z else z <> value.
Theorem indomain_ok fuel : (forall m D, valid m -> wf D -> (length D = 1%nat -> prune D = Some D) -> (2 * length D <= fuel)%nat ->
    answers (fun z => In z D) (Ind fuel m D)) /\
  (forall m value D, valid m -> wf D -> In value D -> (2 * length D - 1 <= fuel)%nat -> answers (left_for m value D) (Alt fuel m value D)).
Proof.
  induction fuel as [|fuel [IH1 IH2]].
  { split; [intros m D V (_ & N & _) O F|intros m v D V (_ & N & _) J F]; destruct D; cbn in F; congruence || lia. }
  split.
  - intros m D V W O F. cbn [Indomain_2]. pose proof W as (S & N & B). destruct D as [|v [|v' D']]; [congruence| |].
    { apply one_answers; [left; reflexivity|apply O; reflexivity|]. intros z [<-|[]] _. reflexivity. }
    set (D := v :: v' :: D') in *. assert (L2 : (2 <= length D)%nat) by (cbn; lia).
    destruct (select_in m D V W) as [J|J]; [|cbn in J; lia]. set (value := Select m D) in *.
    apply (app_answers (fun z => In z D /\ if m =? METHOD_BISECT then z <= value else z = value) (left_for m value D)).
    + destruct (m =? METHOD_BISECT) eqn:E.
      * pose proof (tell_ok (fun z => (0 <=? z) && (z <=? value)) D W) as Q.
        destruct (tell (fun z => (0 <=? z) && (z <=? value)) D) as [D1|].
        -- destruct Q as (W1 & I1 & K1 & O1). assert (m = METHOD_BISECT) by (apply Z.eqb_eq, E). subst m.
           destruct (select_bisect D W L2) as (x & Jx & Lx). fold value in Lx.
           assert (Lt : (length D1 < length D)%nat).
           { apply (shrink D D1 x); auto; [intros z Jz; apply I1, Jz|]. intros Jz. apply I1 in Jz as [_ Jz]. apply andb_true_iff in Jz as [_ Jz]. apply Z.leb_le in Jz. lia. }
           apply (sub_answers (fun z => In z D1)).
           ++ apply IH1; auto; [|lia]. intros L1. destruct D1 as [|w [|w' D1]]; try discriminate L1. apply O1. reflexivity.
           ++ intros z Jz. destruct (I1 z Jz) as [Jz' Q]. apply andb_true_iff in Q as [_ Q]. apply Z.leb_le in Q. auto.
           ++ intros z [Jz Q] Pz. apply K1; auto. apply andb_true_iff. rewrite !Z.leb_le. specialize (B z Jz). lia.
        -- apply none_answers. intros z [Jz Lz]. apply Q; auto. apply andb_true_iff. rewrite !Z.leb_le. specialize (B z Jz). lia.
      * destruct (assign_ok D value W J) as (N1 & A1 & C1). exists (assign value). split; [reflexivity|]. split; [exact N1|]. split.
        -- intros z Jz. destruct (A1 z Jz) as [-> O1]. auto.
        -- intros z [Jz ->] Pz. auto.
    + apply IH2; auto. lia.
    + intros z. unfold left_for. destruct (m =? METHOD_BISECT); split; [intros Jz|intros [[Jz _]|[Jz _]]; exact Jz|intros Jz|intros [[Jz _]|[Jz _]]; exact Jz].
      * destruct (Z_le_gt_dec z value); [left|right]; split; auto; lia.
      * destruct (Z.eq_dec z value); auto.
    + intros z. unfold left_for. destruct (m =? METHOD_BISECT); intros [_ Q1] [_ Q2]; [lia|congruence].
  - intros m value D V W J F. pose proof W as (S & N & B). cbn [Indomain_Alt]. unfold left_for. destruct (m =? METHOD_BISECT) eqn:E.
    + pose proof (tell_ok (fun z => (value + 1 <=? z) && (z <=? INTERVAL_MAX_INTEGER)) D W) as Q.
      destruct (tell (fun z => (value + 1 <=? z) && (z <=? INTERVAL_MAX_INTEGER)) D) as [D1|].
      * destruct Q as (W1 & I1 & K1 & O1).
        assert (Lt : (length D1 < length D)%nat).
        { apply (shrink D D1 value); auto; [intros z Jz; apply I1, Jz|]. intros Jz. apply I1 in Jz as [_ Jz]. apply andb_true_iff in Jz as [Jz _]. apply Z.leb_le in Jz. lia. }
        apply (sub_answers (fun z => In z D1)).
        -- apply IH1; auto; [|lia]. intros L1. destruct D1 as [|w [|w' D1]]; try discriminate L1. apply O1. reflexivity.
        -- intros z Jz. destruct (I1 z Jz) as [Jz' Q]. apply andb_true_iff in Q as [Q _]. apply Z.leb_le in Q. split; [auto|lia].
        -- intros z [Jz Q] Pz. apply K1; auto. apply andb_true_iff. rewrite !Z.leb_le. unfold INTERVAL_MAX_INTEGER. specialize (B z Jz). lia.
      * apply none_answers. intros z [Jz Lz]. apply Q; auto. apply andb_true_iff. rewrite !Z.leb_le. unfold INTERVAL_MAX_INTEGER. specialize (B z Jz). lia.
    + set (m' := if m =? METHOD_LIMITS_MIN then METHOD_LIMITS_MAX else if m =? METHOD_LIMITS_MAX then METHOD_LIMITS_MIN else m).
      assert (V' : valid m' /\ m' =? METHOD_BISECT = false).
      { unfold m'. destruct (m =? METHOD_LIMITS_MIN); [split; [unfold valid, METHOD_LIMITS_MAX; lia|reflexivity]|].
        destruct (m =? METHOD_LIMITS_MAX); [split; [unfold valid, METHOD_LIMITS_MIN; lia|reflexivity]|auto]. }
      destruct V' as [V' E'].
      pose proof (tell_ok (fun z => negb (z =? value)) D W) as Q. destruct (tell (fun z => negb (z =? value)) D) as [D1|].
      * destruct Q as (W1 & I1 & K1 & O1).
        assert (I2 : forall z, In z D1 -> In z D /\ z <> value).
        { intros z Jz. destruct (I1 z Jz) as [Jz' Q]. apply negb_true_iff, Z.eqb_neq in Q. auto. }
        assert (K2 : forall z, In z D /\ z <> value -> P z -> In z D1).
        { intros z [Jz Q] Pz. apply K1; auto. apply negb_true_iff, Z.eqb_neq, Q. }
        assert (Lt : (length D1 < length D)%nat).
        { apply (shrink D D1 value); auto; [intros z Jz; apply I1, Jz|]. intros Jz. apply I2 in Jz as [_ Jz]. congruence. }
        destruct D1 as [|w [|w' D1]]; [destruct W1 as (_ & N1 & _); congruence| |].
        -- apply one_answers; [apply I2; left; reflexivity|apply O1; reflexivity|]. intros z Jz Pz. destruct (K2 z Jz Pz) as [<-|[]]. reflexivity.
        -- set (D2 := w :: w' :: D1) in *. cbv zeta. destruct (select_in m' D2 V' W1) as [J2|J2]; [|cbn in J2; lia].
           set (v2 := Select m' D2) in *. apply (sub_answers (fun z => In z D2)); auto.
           change (answers (fun z => In z D2) (match Some (assign v2), Alt fuel m' v2 D2 with Some a, Some b => Some (a ++ b) | _, _ => None end)).
           apply (app_answers (fun z => In z D2 /\ z = v2) (left_for m' v2 D2)).
           ++ destruct (assign_ok D2 v2 W1 J2) as (N1 & A1 & C1). exists (assign v2). split; [reflexivity|]. split; [exact N1|]. split.
              ** intros z Jz. destruct (A1 z Jz) as [-> Oz]. auto.
              ** intros z [Jz ->] Pz. auto.
           ++ apply IH2; auto. lia.
           ++ intros z. unfold left_for. rewrite E'. split; [intros Jz; destruct (Z.eq_dec z v2); auto|intros [[Jz _]|[Jz _]]; exact Jz].
           ++ intros z. unfold left_for. rewrite E'. intros [_ Q1] [_ Q2]. congruence.
      * apply none_answers. intros z [Jz Lz]. apply Q; auto. apply negb_true_iff, Z.eqb_neq, Lz.
Qed.
End S.
