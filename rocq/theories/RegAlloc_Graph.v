(** Proofs for C59: the constraints between registers. *)
Require Import List Bool Arith Lia.
Require Import Verif.RegAlloc_Model Verif.RegAlloc_Spec.
Import ListNotations.

Lemma reg_eqb_spec : forall x y, reflect (x = y) (reg_eqb x y).
Proof.
  intros [n|n] [m|m]; cbn; try (constructor; discriminate); destruct (Nat.eqb_spec n m) as [->|N]; constructor; congruence.
Qed.
Lemma reg_eqb_refl : forall x, reg_eqb x x = true.
Proof. intros x. destruct (reg_eqb_spec x x); congruence. Qed.
Lemma reg_dec : forall x y : reg, {x = y} + {x <> y}.
Proof. intros x y. destruct (reg_eqb_spec x y); auto. Qed.
Lemma elt_In : forall l x, elt l x = true <-> In x l.
Proof.
  induction l as [|y l IH]; intros x; cbn; [split; [discriminate|intros []]|]. rewrite orb_true_iff, IH.
  destruct (reg_eqb_spec x y) as [->|N]; split; intros [E|E]; auto; congruence.
Qed.
Lemma elt_notIn : forall l x, elt l x = false <-> ~ In x l.
Proof. intros l x. rewrite <- elt_In. destruct (elt l x); split; congruence. Qed.
Lemma add_In : forall l x y, In y (add l x) <-> y = x \/ In y l.
Proof.
  induction l as [|z l IH]; intros x y; cbn; [intuition auto|]. destruct (reg_eqb_spec x z) as [->|N]; cbn; [intuition auto|].
  rewrite IH. intuition auto.
Qed.
Lemma delete_some : forall l x l', delete l x = Some l' -> In x l /\ (forall y, In y l <-> y = x \/ In y l') /\ (NoDup l -> NoDup l' /\ ~ In x l').
Proof.
  induction l as [|z l IH]; intros x l' E; cbn in E; [discriminate|]. destruct (reg_eqb_spec x z) as [->|N].
  - injection E as ->. split; [left; reflexivity|]. split; [cbn; intuition auto|]. intros ND. inversion ND; subst. auto.
  - destruct (delete l x) as [l1|] eqn:ED; [|discriminate E]. injection E as <-. destruct (IH x l1 ED) as (I1 & I2 & I3).
    split; [right; exact I1|]. split; [intros y; cbn; rewrite I2; intuition auto|]. intros ND. inversion ND; subst.
    destruct (I3 H2) as (N1 & N2). split; [constructor; [|exact N1]; intros Q; apply H1; apply I2; auto|].
    intros [Q|Q]; [congruence|contradiction].
Qed.
Lemma delete_none : forall l x, delete l x = None -> ~ In x l.
Proof.
  induction l as [|z l IH]; intros x E; cbn in E; [intros []|]. destruct (reg_eqb x z) eqn:EQ; [discriminate E|].
  destruct (delete l x) eqn:ED; [discriminate E|]. intros [Q|Q]; [subst z; rewrite reg_eqb_refl in EQ; discriminate EQ|apply (IH x ED Q)].
Qed.
Lemma union_In : forall l1 l2 y, In y (union l1 l2) <-> In y l1 \/ In y l2.
Proof.
  induction l1 as [|x l1 IH]; intros l2 y; cbn; [intuition auto|]. destruct (elt l2 x) eqn:E.
  - apply elt_In in E. rewrite IH. intuition (subst; auto).
  - cbn. rewrite IH. intuition auto.
Qed.
Lemma diff_In : forall l l1 y, In y (diff l l1) <-> In y l /\ ~ In y l1.
Proof.
  induction l as [|x l IH]; intros l1 y; cbn; [intuition auto|]. destruct (elt l1 x) eqn:E.
  - apply elt_In in E. rewrite IH. intuition (subst; auto). contradiction.
  - apply elt_notIn in E. cbn. rewrite IH. intuition (subst; auto).
Qed.

(** the graph *)
Definition I (l : list tmp) (t : nat) (y : reg) : Prop := exists x, In x l /\ t_reg x = t /\ In y (t_imposs x).
Definition W (l : list tmp) (t : nat) (y : reg) : Prop := exists x, In x l /\ t_reg x = t /\ In y (t_wish x).
Definition keys (l : list tmp) : list nat := map t_reg l.

Lemma update_I : forall l t im wi u y, I (update_tmp l t im wi) u y <-> I l u y \/ (u = t /\ In y im).
Proof.
  induction l as [|x l IH]; intros t im wi u y; cbn [update_tmp].
  - split; [intros (z & [<-|[]] & E1 & E2); right; cbn in *; auto|intros [(z & [] & _)|(-> & H)]; exists (Tmp t im wi); cbn; auto].
  - destruct (Nat.eqb_spec t (t_reg x)) as [E|N].
    + split.
      * intros (z & [<-|Hz] & E1 & E2); cbn in *; [apply union_In in E2; destruct E2 as [E2|E2]; [auto|left; exists x; cbn; subst; auto]|left; exists z; cbn; auto].
      * intros [(z & [<-|Hz] & E1 & E2)|(-> & E2)]; [|exists z; cbn; auto|]; (eexists; split; [left; reflexivity|]; cbn; rewrite union_In; subst; auto).
    + split.
      * intros (z & [<-|Hz] & E1 & E2); [left; exists x; cbn; auto|]. destruct (proj1 (IH t im wi u y)) as [(z' & A1 & A2)|Q]; [exists z; auto|left; exists z'; cbn; auto|auto].
      * intros [(z & [<-|Hz] & E1 & E2)|Q]; [exists x; cbn; auto| |]; (destruct (proj2 (IH t im wi u y)) as (z' & A1 & A2); [|exists z'; cbn; auto]); [left; exists z; auto|auto].
Qed.
Lemma update_W : forall l t im wi u y, W (update_tmp l t im wi) u y <-> W l u y \/ (u = t /\ In y wi).
Proof.
  induction l as [|x l IH]; intros t im wi u y; cbn [update_tmp].
  - split; [intros (z & [<-|[]] & E1 & E2); right; cbn in *; auto|intros [(z & [] & _)|(-> & H)]; exists (Tmp t im wi); cbn; auto].
  - destruct (Nat.eqb_spec t (t_reg x)) as [E|N].
    + split.
      * intros (z & [<-|Hz] & E1 & E2); cbn in *; [apply union_In in E2; destruct E2 as [E2|E2]; [auto|left; exists x; cbn; subst; auto]|left; exists z; cbn; auto].
      * intros [(z & [<-|Hz] & E1 & E2)|(-> & E2)]; [|exists z; cbn; auto|]; (eexists; split; [left; reflexivity|]; cbn; rewrite union_In; subst; auto).
    + split.
      * intros (z & [<-|Hz] & E1 & E2); [left; exists x; cbn; auto|]. destruct (proj1 (IH t im wi u y)) as [(z' & A1 & A2)|Q]; [exists z; auto|left; exists z'; cbn; auto|auto].
      * intros [(z & [<-|Hz] & E1 & E2)|Q]; [exists x; cbn; auto| |]; (destruct (proj2 (IH t im wi u y)) as (z' & A1 & A2); [|exists z'; cbn; auto]); [left; exists z; auto|auto].
Qed.
Lemma update_keys : forall l t im wi u, In u (keys (update_tmp l t im wi)) <-> In u (keys l) \/ u = t.
Proof.
  induction l as [|x l IH]; intros t im wi u; cbn [update_tmp]; [cbn; intuition auto|].
  destruct (Nat.eqb_spec t (t_reg x)) as [E|N]; cbn; [rewrite <- E; intuition auto|]. fold (keys (update_tmp l t im wi)). rewrite IH. fold (keys l). intuition auto.
Qed.
Lemma update_nodup : forall l t im wi, NoDup (keys l) -> NoDup (keys (update_tmp l t im wi)).
Proof.
  induction l as [|x l IH]; intros t im wi ND; cbn [update_tmp]; [repeat constructor; intros []|].
  destruct (Nat.eqb_spec t (t_reg x)) as [E|N]; cbn in *; [rewrite E; exact ND|]. inversion ND; subst. constructor; [|apply IH; exact H2].
  fold (keys (update_tmp l t im wi)). rewrite update_keys. intros [Q|Q]; [contradiction|congruence].
Qed.
Lemma make_I : forall cstr im l u y, I (make_imposs cstr im l) u y <-> I l u y \/ (In (T u) cstr /\ In y im).
Proof.
  induction cstr as [|x cstr IH]; intros im l u y; cbn [make_imposs]; [cbn; intuition auto|]. rewrite IH. destruct x as [n|n].
  - cbn. intuition (try discriminate; auto).
  - rewrite update_I. cbn. split; [intros [[H|(-> & H)]|(H1 & H2)]; auto|intros [H|([E|H1] & H2)]; [auto|injection E as ->; auto|auto]].
Qed.
Lemma make_W : forall cstr im l u y, W (make_imposs cstr im l) u y <-> W l u y.
Proof.
  induction cstr as [|x cstr IH]; intros im l u y; cbn [make_imposs]; [intuition auto|]. rewrite IH. destruct x as [n|n]; [reflexivity|].
  rewrite update_W. cbn. intuition auto.
Qed.
Lemma make_keys : forall cstr im l u, In u (keys (make_imposs cstr im l)) <-> In u (keys l) \/ In (T u) cstr.
Proof.
  induction cstr as [|x cstr IH]; intros im l u; cbn [make_imposs]; [cbn; intuition auto|]. rewrite IH. destruct x as [n|n].
  - cbn. intuition (try discriminate; auto).
  - rewrite update_keys. cbn. split; [intros [[H| ->]|H]; auto|intros [H|[E|H]]; [auto|injection E as ->; auto|auto]].
Qed.
Lemma make_nodup : forall cstr im l, NoDup (keys l) -> NoDup (keys (make_imposs cstr im l)).
Proof.
  induction cstr as [|x cstr IH]; intros im l ND; cbn [make_imposs]; [exact ND|]. apply IH. destruct x; [exact ND|]. apply update_nodup; exact ND.
Qed.

Definition aliased (al : alias) (x y : reg) : Prop := exists s, In s al /\ In x s /\ In y s.
Lemma find_spec : forall al x s, find_aliases_of al x = Some s -> forall y, In y s -> aliased al x y.
Proof.
  induction al as [|s0 al IH]; intros x s E y Hy; cbn in E; [discriminate|]. destruct (delete s0 x) as [s1|] eqn:ED.
  - injection E as ->. destruct (delete_some _ _ _ ED) as (A1 & A2 & _). exists s0. split; [left; reflexivity|]. split; [exact A1|]. apply A2. auto.
  - destruct (IH x s E y Hy) as (s2 & B1 & B2). exists s2. split; [right; exact B1|exact B2].
Qed.
Lemma cstr_sub : forall opt x life al y, In y (constraints opt x life al) -> In y life.
Proof. intros opt x life al y. unfold constraints. destruct (opt =? 2); [|auto]. destruct (find_aliases_of al x); [|auto]. rewrite diff_In. tauto. Qed.
Lemma cstr_all : forall opt x life al y, In y life -> In y (constraints opt x life al) \/ aliased al x y.
Proof.
  intros opt x life al y H. unfold constraints. destruct (opt =? 2); [|auto]. destruct (find_aliases_of al x) as [s|] eqn:E; [|auto].
  rewrite diff_In. destruct (in_dec reg_dec y s) as [Hy|Hy]; [right; apply (find_spec al x s E y Hy)|auto].
Qed.

(** the invariant of the construction *)
Record ginv (life : list reg) (l : list tmp) : Prop := Ginv {
  g_nd : NoDup life;
  g_keys : NoDup (keys l);
  g_life : forall u, In (T u) life -> In u (keys l);
  g_sym : forall t u, I l t (T u) -> I l u (T t);
  g_irr : forall t, ~ I l t (T t) }.
Definition symW (l : list tmp) : Prop := forall t u, W l t (T u) -> W l u (T t).
Definition mono (l l' : list tmp) : Prop := (forall u y, I l u y -> I l' u y) /\ (forall u, In u (keys l) -> In u (keys l')).
Lemma mono_trans : forall a b d, mono a b -> mono b d -> mono a d.
Proof. intros a b d (A1 & A2) (B1 & B2). split; auto. Qed.
Lemma mono_refl : forall a, mono a a.
Proof. intros a. split; auto. Qed.
Definition clash (l : list tmp) (x y : reg) : Prop := (exists t, x = T t /\ I l t y) \/ (exists t, y = T t /\ I l t x).
Lemma clash_mono : forall l l' x y, mono l l' -> clash l x y -> clash l' x y.
Proof. intros l l' x y (M & _) [(t & E & H)|(t & E & H)]; [left|right]; exists t; auto. Qed.
Definition args2 (x y : reg) : Prop := exists a b, x = A a /\ y = A b.

Lemma handle_r_ok : forall opt x al wish life l life' l', ginv life l -> handle_r opt x al wish life l = (life', l') ->
  ginv life' l' /\ mono l l' /\ (forall y, In y life' <-> y = x \/ In y life) /\
  (forall y, In y life -> ~ In x life -> clash l' x y \/ aliased al x y \/ args2 x y) /\
  (forall u y, W l' u y <-> W l u y \/ (x = T u /\ In y wish)) /\
  (forall u, x = T u -> In u (keys l')).
Proof.
  intros opt x al wish life l life' l' G E. destruct G as [G1 G2 G3 G4 G5]. unfold handle_r in E. destruct (elt life x) eqn:EE.
  - apply elt_In in EE. injection E as <- <-.
    set (l1 := match x with T t => if nonempty wish then update_tmp l t [] wish else l | A _ => l end).
    assert (HI : forall u y, I l1 u y <-> I l u y). { intros u y. unfold l1. destruct x; [reflexivity|]. destruct (nonempty wish); [|reflexivity]. rewrite update_I. cbn. tauto. }
    assert (HK : forall u, In u (keys l) -> In u (keys l1)). { intros u H. unfold l1. destruct x; [exact H|]. destruct (nonempty wish); [|exact H]. apply update_keys. auto. }
    assert (HN : NoDup (keys l1)). { unfold l1. destruct x; [exact G2|]. destruct (nonempty wish); [|exact G2]. apply update_nodup. exact G2. }
    repeat match goal with |- _ /\ _ => split end.
    + constructor; [exact G1|exact HN|intros u H; auto|intros t u H; rewrite HI in *; auto|intros t H; apply HI in H; apply (G5 t H)].
    + split; [intros u y H; apply HI; exact H|exact HK].
    + intros y. split; [auto|intros [->|H]; auto].
    + intros y _ N. contradiction.
    + intros u y. unfold l1. destruct x as [n|n]; [split; [auto|intros [H|(Q & _)]; [exact H|discriminate Q]]|]. destruct (nonempty wish) eqn:NW.
      * rewrite update_W. split; (intros [H|(H1 & H2)]; [auto|]); [subst; auto|injection H1 as ->; auto].
      * destruct wish; [|discriminate NW]. cbn. tauto.
    + intros u ->. apply HK. auto.
  - apply elt_notIn in EE. injection E as <- <-.
    set (cstr := constraints opt x life al) in *. set (l0 := make_imposs cstr [x] l).
    set (l1 := match x with T t => update_tmp l0 t cstr wish | A _ => l0 end).
    assert (HI : forall u y, I l1 u y <-> I l u y \/ (In (T u) cstr /\ y = x) \/ (x = T u /\ In y cstr)).
    { intros u y. unfold l1, l0. destruct x as [n|n].
      - rewrite make_I. cbn. split; [intros [H|(H1 & [H2|[]])]; auto|intros [H|[(H1 & H2)|(H1 & _)]]; [auto|auto|discriminate H1]].
      - rewrite update_I, make_I. cbn. split; [intros [[H|(H1 & [H2|[]])]|(H1 & H2)]; [auto|auto|subst; auto]|intros [H|[(H1 & H2)|(H1 & H2)]]; [auto|auto|injection H1 as ->; auto]]. }
    assert (HK : forall u, In u (keys l1) <-> In u (keys l) \/ In (T u) cstr \/ x = T u).
    { intros u. unfold l1, l0. destruct x as [n|n]; [rewrite make_keys; intuition (discriminate || auto)|]. rewrite update_keys, make_keys.
      split; [intros [[H|H]|H]; [auto|auto|subst; auto]|intros [H|[H|H]]; [auto|auto|injection H as ->; auto]]. }
    assert (HN : NoDup (keys l1)). { unfold l1, l0. destruct x; [apply make_nodup; exact G2|]. apply update_nodup, make_nodup. exact G2. }
    assert (CS : forall y, In y cstr -> In y life) by (intros y; apply cstr_sub).
    repeat match goal with |- _ /\ _ => split end.
    + constructor.
      * constructor; [exact EE|exact G1].
      * exact HN.
      * intros u [H|H]; apply HK; auto.
      * intros t u. rewrite !HI. intros [H|[(H1 & H2)|(H1 & H2)]]; [left; auto| |]; subst x; auto.
      * intros t. rewrite HI. intros [H|[(H1 & H2)|(H1 & H2)]]; [apply (G5 t H)| |]; subst x; apply EE; apply CS; assumption.
    + split; [intros u y H; apply HI; auto|intros u H; apply HK; auto].
    + intros y. cbn. split; [intros [->|H]; auto|intros [->|H]; auto].
    + intros y Hy _. destruct (cstr_all opt x life al y Hy) as [H|H]; [|auto]. fold cstr in H. destruct x as [a|t].
      * destruct y as [b|u]; [right; right; exists a, b; auto|]. left. right. exists u. split; [reflexivity|]. apply HI. auto.
      * left. left. exists t. split; [reflexivity|]. apply HI. auto.
    + intros u y. unfold l1, l0. destruct x as [n|n]; [rewrite make_W; split; [auto|intros [H|(Q & _)]; [exact H|discriminate Q]]|].
      rewrite update_W, make_W. split; (intros [H|(H1 & H2)]; [auto|]); [subst; auto|injection H1 as ->; auto].
    + intros u H. apply HK. auto.
Qed.

Lemma handle_w_ok : forall opt x al wish life l life' l', ginv life l -> handle_w opt x al wish life l = (life', l') ->
  ginv life' l' /\ mono l l' /\ (forall y, In y life' <-> In y life /\ y <> x) /\
  (In x life \/ (exists a, x = A a) \/ (exists t, x = T t /\ forall y, In y life -> In y wish \/ I l' t y \/ aliased al x y)) /\
  (forall u y, W l' u y <-> W l u y \/ (x = T u /\ In y wish)) /\
  (forall u, x = T u -> In u (keys l')).
Proof.
  intros opt x al wish life l life' l' G E. destruct G as [G1 G2 G3 G4 G5]. unfold handle_w in E. destruct (delete life x) as [life1|] eqn:ED.
  - destruct (delete_some _ _ _ ED) as (D1 & D2 & D3). destruct (D3 G1) as (D4 & D5). injection E as <- <-.
    set (l1 := match x with T t => if nonempty wish then update_tmp l t [] wish else l | A _ => l end).
    assert (HI : forall u y, I l1 u y <-> I l u y). { intros u y. unfold l1. destruct x; [reflexivity|]. destruct (nonempty wish); [|reflexivity]. rewrite update_I. cbn. tauto. }
    assert (HK : forall u, In u (keys l) -> In u (keys l1)). { intros u H. unfold l1. destruct x; [exact H|]. destruct (nonempty wish); [|exact H]. apply update_keys. auto. }
    assert (HN : NoDup (keys l1)). { unfold l1. destruct x; [exact G2|]. destruct (nonempty wish); [|exact G2]. apply update_nodup. exact G2. }
    repeat match goal with |- _ /\ _ => split end.
    + constructor; [exact D4|exact HN|intros u H; apply HK, G3, D2; auto|intros t u H; rewrite HI in *; auto|intros t H; apply HI in H; apply (G5 t H)].
    + split; [intros u y H; apply HI; exact H|exact HK].
    + intros y. rewrite D2. split; [intros H; split; [auto|intros ->; contradiction]|intros ([->|H] & N); [congruence|exact H]].
    + auto.
    + intros u y. unfold l1. destruct x as [n|n]; [split; [auto|intros [H|(Q & _)]; [exact H|discriminate Q]]|]. destruct (nonempty wish) eqn:NW.
      * rewrite update_W. split; (intros [H|(H1 & H2)]; [auto|]); [subst; auto|injection H1 as ->; auto].
      * destruct wish; [|discriminate NW]. cbn. tauto.
    + intros u ->. apply HK. auto.
  - apply delete_none in ED. injection E as <- <-.
    assert (LF : forall y, In y life <-> In y life /\ y <> x) by (intros y; split; [intros H; split; [exact H|intros ->; contradiction]|tauto]).
    destruct x as [a|t].
    + repeat match goal with |- _ /\ _ => split end; [constructor; auto|apply mono_refl|exact LF|right; left; exists a; reflexivity| |intros u Q; discriminate Q].
      intros u y. split; [auto|intros [H|(Q & _)]; [exact H|discriminate Q]].
    + set (cstr0 := constraints opt (T t) life al). set (cstr := if nonempty wish then diff cstr0 wish else cstr0).
      assert (CS : forall y, In y cstr -> In y life).
      { intros y. unfold cstr. destruct (nonempty wish); [rewrite diff_In; intros (H & _)|intros H]; apply (cstr_sub _ _ _ _ _ H). }
      assert (CA : forall y, In y life -> In y wish \/ In y cstr \/ aliased al (T t) y).
      { intros y Hy. destruct (cstr_all opt (T t) life al y Hy) as [H|H]; [|auto]. fold cstr0 in H. unfold cstr. destruct (nonempty wish); [|auto].
        rewrite diff_In. destruct (in_dec reg_dec y wish); auto. }
      assert (HI : forall u y, I (update_tmp (make_imposs cstr [T t] l) t cstr wish) u y <-> I l u y \/ (In (T u) cstr /\ y = T t) \/ (T t = T u /\ In y cstr)).
      { intros u y. rewrite update_I, make_I. cbn. split; [intros [[H|(H1 & [H2|[]])]|(H1 & H2)]; [auto|auto|subst; auto]|intros [H|[(H1 & H2)|(H1 & H2)]]; [auto|auto|injection H1 as ->; auto]]. }
      repeat match goal with |- _ /\ _ => split end.
      * constructor; [exact G1|apply update_nodup, make_nodup; exact G2|intros u H; rewrite update_keys, make_keys; auto| |].
        -- intros t0 u. rewrite !HI. intros [H|[(H1 & H2)|(H1 & H2)]]; [left; auto| |]; [injection H2 as ->; auto|injection H1 as ->; auto].
        -- intros t0. rewrite HI. intros [H|[(H1 & H2)|(H1 & H2)]]; [apply (G5 t0 H)| |]; [injection H2 as ->|injection H1 as ->]; apply ED; apply CS; assumption.
      * split; [intros u y H; apply HI; auto|intros u H; rewrite update_keys, make_keys; auto].
      * exact LF.
      * right. right. exists t. split; [reflexivity|]. intros y Hy. destruct (CA y Hy) as [H|[H|H]]; [auto| |auto]. right. left. apply HI. auto.
      * intros u y. rewrite update_W, make_W. split; (intros [H|(H1 & H2)]; [auto|]); [subst; auto|injection H1 as ->; auto].
      * intros u Q. injection Q as ->. rewrite update_keys. auto.
Qed.

Lemma handle_app : forall opt k1 k2 al life l, handle_lst_code opt (k1 ++ k2) al life l =
  let (life1, l1) := handle_lst_code opt k2 al life l in handle_lst_code opt k1 al life1 l1.
Proof.
  induction k1 as [|x k1 IH]; intros k2 al life l; cbn [app handle_lst_code]; [destruct (handle_lst_code opt k2 al life l); reflexivity|].
  rewrite IH. destruct (handle_lst_code opt k2 al life l). reflexivity.
Qed.

Lemma reads_ok : forall opt al rd life l life' l', ginv life l -> symW l -> handle_lst_code opt (map r rd) al life l = (life', l') ->
  ginv life' l' /\ symW l' /\ mono l l' /\ (forall y, In y life' <-> In y rd \/ In y life) /\
  (forall x y, In x life' -> In y life' -> x <> y -> ~ (In x life /\ In y life) -> clash l' x y \/ aliased al x y \/ args2 x y) /\
  (forall u, In (T u) rd -> In u (keys l')).
Proof.
  induction rd as [|z rd IH]; intros life l life' l' G SW E; cbn [map handle_lst_code] in E.
  - injection E as <- <-. split; [exact G|]. split; [exact SW|]. split; [apply mono_refl|]. split; [cbn; tauto|]. split; [|intros u []]. intros x y Hx Hy _ N. tauto.
  - destruct (handle_lst_code opt (map r rd) al life l) as [life1 l1] eqn:E1. cbn [handle_one_code] in E.
    destruct (IH life l life1 l1 G SW E1) as (B1 & B2 & B3 & B4 & B5 & B6).
    destruct (handle_r_ok opt z al [] life1 l1 life' l' B1 E) as (C1 & C2 & C3 & C4 & C5 & C6).
    split; [exact C1|]. split. { intros t u. rewrite !C5. cbn. intros [H|(_ & [])]. left. apply B2. exact H. }
    split; [eapply mono_trans; eassumption|]. split; [intros y; rewrite C3, B4; cbn; intuition auto|]. split.
    + intros x y Hx Hy N NB. apply C3 in Hx. apply C3 in Hy.
      destruct (in_dec reg_dec z life1) as [Hz|Hz].
      * assert (Hx1 : In x life1) by (destruct Hx as [->|]; assumption). assert (Hy1 : In y life1) by (destruct Hy as [->|]; assumption).
        destruct (B5 x y Hx1 Hy1 N NB) as [Q|Q]; [left; apply (clash_mono _ _ _ _ C2 Q)|auto].
      * destruct Hx as [->|Hx]; [destruct Hy as [->|Hy]; [congruence|]; apply (C4 y Hy Hz)|]. destruct Hy as [->|Hy].
        -- destruct (C4 x Hx Hz) as [[Q|Q]|[(s & Q1 & Q2 & Q3)|(a & b & Q1 & Q2)]]; [left; right; exact Q|left; left; exact Q|right; left; exists s; auto|right; right; exists b, a; auto].
        -- destruct (B5 x y Hx Hy N NB) as [Q|Q]; [left; apply (clash_mono _ _ _ _ C2 Q)|auto].
    + intros u [->|H]; [apply C6; reflexivity|]. apply C2, B6, H.
Qed.
Lemma writes_ok : forall opt al ws life l life' l', ginv life l -> symW l -> handle_lst_code opt (map w ws) al life l = (life', l') ->
  ginv life' l' /\ symW l' /\ mono l l' /\ (forall y, In y life' <-> In y life /\ ~ In y ws) /\
  (forall w1 x w2, ws = w1 ++ x :: w2 -> (In x life /\ ~ In x w2) \/ (exists a, x = A a) \/ (exists t, x = T t /\ forall y, In y life -> ~ In y w2 -> I l' t y \/ aliased al x y)) /\
  (forall u, In (T u) ws -> In u (keys l')).
Proof.
  induction ws as [|z ws IH]; intros life l life' l' G SW E; cbn [map handle_lst_code] in E.
  - injection E as <- <-. split; [exact G|]. split; [exact SW|]. split; [apply mono_refl|]. split; [cbn; tauto|]. split; [|intros u []]. intros [|? ?] x w2 Q; discriminate Q.
  - destruct (handle_lst_code opt (map w ws) al life l) as [life1 l1] eqn:E1. cbn [handle_one_code] in E.
    destruct (IH life l life1 l1 G SW E1) as (B1 & B2 & B3 & B4 & B5 & B6).
    destruct (handle_w_ok opt z al [] life1 l1 life' l' B1 E) as (C1 & C2 & C3 & C4 & C5 & C6).
    split; [exact C1|]. split. { intros t u. rewrite !C5. cbn. intros [H|(_ & [])]. left. apply B2. exact H. }
    split; [eapply mono_trans; eassumption|]. split; [intros y; rewrite C3, B4; cbn; split; [intros ((H1 & H2) & H3); split; [exact H1|intros [Q|Q]; [congruence|contradiction]]|intros (H1 & H2); split; [split; [exact H1|]|]; auto]|]. split.
    + intros [|z' w1] x w2 Q; cbn in Q; injection Q as -> ->.
      * destruct C4 as [H|[H|(t & -> & H)]]; [left; apply B4; exact H|auto|]. right. right. exists t. split; [reflexivity|]. intros y Hy Ny.
        destruct (H y (proj2 (B4 y) (conj Hy Ny))) as [[]|Q]; exact Q.
      * destruct (B5 w1 x w2 eq_refl) as [H|[H|(t & -> & H)]]; [auto|auto|]. right. right. exists t. split; [reflexivity|]. intros y Hy Ny.
        destruct (H y Hy Ny) as [Q|Q]; [left; apply C2; exact Q|auto].
    + intros u [->|H]; [apply C6; reflexivity|]. apply C2, B6, H.
Qed.

(** the codes of an instruction: its reads, then registers it reads again, then its writes *)
Lemma call_c_codes : forall l e, lst_rw_for_c_call l e = map r (x_args l) ++ map w (rev (x_args l)) ++ e.
Proof.
  induction l as [|[x|k] l IH]; intros e; cbn; [reflexivity| |apply IH]. rewrite IH. f_equal. f_equal. fold (x_args l). rewrite map_app, <- app_assoc. reflexivity.
Qed.
Lemma codif_shape : forall i, match effect_of i with
  | Copy x y => codification i = [c x y]
  | Op rd lost wr => exists ts, codification i = map r rd ++ map w (ts ++ map fst wr) /\ incl ts rd
  end.
Proof.
  intros [t a|t a|k x|t a|x|t a|k x|k x1 x|k x t|t|k t|k n|t|k t|k stop ret l|k]; cbn; try reflexivity; try (exists []; split; [reflexivity|intros ? []]).
  - exists []. split; [|intros ? []]. cbn. rewrite app_nil_r. unfold lst_r_for_call_execute. rewrite map_map. reflexivity.
  - exists (rev (x_args l)). split; [|intros x H; apply in_rev; exact H]. rewrite call_c_codes, map_app. destruct ret; reflexivity.
Qed.

Lemma inst_graph : forall opt i al life l life' l', ginv life l -> symW l -> handle_lst_code opt (codification i) al life l = (life', l') ->
  ginv life' l' /\ symW l' /\ mono l l' /\
  (forall y, In y life' <-> In y (reads_of i) \/ (In y life /\ ~ In y (writes_of i))) /\
  (forall x y, In x life' -> In y life' -> x <> y -> ~ ((In x life /\ ~ In x (writes_of i)) /\ (In y life /\ ~ In y (writes_of i))) -> clash l' x y \/ aliased al x y \/ args2 x y) /\
  (forall w1 x w2, writes_of i = w1 ++ x :: w2 -> (In x life /\ ~ In x w2) \/ (exists a, x = A a) \/
     (exists t, x = T t /\ forall y, In y life -> ~ In y w2 -> effect_of i = Copy y x \/ I l' t y \/ aliased al x y)) /\
  (forall u, In (T u) (reads_of i) \/ In (T u) (writes_of i) -> In u (keys l')).
Proof.
  intros opt i al life l life' l' G SW E. pose proof (codif_shape i) as CS. unfold reads_of, writes_of. destruct (effect_of i) as [x y|rd lost wr].
  - rewrite CS in E. cbn [handle_lst_code handle_one_code] in E. destruct (handle_w opt y al [x] life l) as [life1 l1] eqn:E1.
    destruct (handle_w_ok opt y al [x] life l life1 l1 G E1) as (B1 & B2 & B3 & B4 & B5 & B6).
    destruct (handle_r_ok opt x al [y] life1 l1 life' l' B1 E) as (C1 & C2 & C3 & C4 & C5 & C6).
    split; [exact C1|]. split.
    { intros t u. rewrite !C5, !B5. cbn. intros [[H|(H1 & [H2|[]])]|(H1 & [H2|[]])]; [left; left; apply SW; exact H| |]; subst; auto. }
    split; [eapply mono_trans; eassumption|]. split. { intros z. rewrite C3, B3. cbn. split; [intros [->|(H1 & H2)]; [auto|]; right; split; [exact H1|intros [Q|[]]; congruence]|intros [[->|[]]|(H1 & H2)]; [auto|]; right; split; [exact H1|intros Q; apply H2; auto]]. }
    split; [|split].
    + intros a b Ha Hb N NB. apply C3 in Ha. apply C3 in Hb.
      assert (L1 : forall z, In z life1 -> In z life /\ ~ In z [y]) by (intros z Hz; apply B3 in Hz; destruct Hz as (Z1 & Z2); split; [exact Z1|intros [Q|[]]; congruence]).
      destruct (in_dec reg_dec x life1) as [Hx|Hx].
      * exfalso. apply NB. split; [destruct Ha as [->|Ha]|destruct Hb as [->|Hb]]; apply L1; assumption.
      * destruct Ha as [->|Ha]; [destruct Hb as [->|Hb]; [congruence|]; apply (C4 b Hb Hx)|]. destruct Hb as [->|Hb].
        -- destruct (C4 a Ha Hx) as [[Q|Q]|[(s & Q1 & Q2 & Q3)|(m & n & Q1 & Q2)]]; [left; right; exact Q|left; left; exact Q|right; left; exists s; auto|right; right; exists n, m; auto].
        -- exfalso. apply NB. split; apply L1; assumption.
    + intros [|z w1] z0 w2 Q; [|destruct w1; discriminate Q]. cbn in Q. injection Q as <- <-. destruct B4 as [H|[H|(t & -> & H)]]; [left; split; [exact H|intros []]|auto|].
      right. right. exists t. split; [reflexivity|]. intros z Hz _. destruct (H z Hz) as [[<-|[]]|[Q|Q]]; [auto|right; left; apply C2; exact Q|auto].
    + intros u [[->|[]]|[->|[]]]; [apply C6; reflexivity|]. apply C2, B6. reflexivity.
  - destruct CS as (ts & CS & IN). rewrite CS, handle_app in E. destruct (handle_lst_code opt (map w (ts ++ map fst wr)) al life l) as [life1 l1] eqn:E1.
    destruct (writes_ok opt al _ life l life1 l1 G SW E1) as (B1 & B2 & B3 & B4 & B5 & B6).
    destruct (reads_ok opt al rd life1 l1 life' l' B1 B2 E) as (C1 & C2 & C3 & C4 & C5 & C6).
    split; [exact C1|]. split; [exact C2|]. split; [eapply mono_trans; eassumption|]. split; [|split; [|split]].
    + intros y. rewrite C4, B4. rewrite in_app_iff. split; [intros [H|(H1 & H2)]; [auto|]; right; split; [exact H1|tauto]|].
      intros [H|(H1 & H2)]; [auto|]. destruct (in_dec reg_dec y ts) as [Q|Q]; [left; apply IN; exact Q|]. right. split; [exact H1|]. tauto.
    + intros x y Hx Hy N NB. apply (C5 x y Hx Hy N). intros (Q1 & Q2). apply NB. apply B4 in Q1. apply B4 in Q2. rewrite in_app_iff in *. tauto.
    + intros w1 x w2 Q. destruct (B5 (ts ++ w1) x w2) as [H|[H|(t & -> & H)]]; [rewrite Q, <- app_assoc; reflexivity|auto|auto|]. right. right. exists t. split; [reflexivity|].
      intros y Hy Ny. right. destruct (H y Hy Ny) as [H1|H1]; [left; apply C3; exact H1|auto].
    + intros u [H|H]; [apply C6; exact H|]. apply C3, B6. rewrite in_app_iff. auto.
Qed.

(** the whole code *)
Lemma create_ginv : forall opt i al life l, create_lst_tmp opt i al = (life, l) -> ginv life l /\ symW l /\ (forall y, In y life <-> needed y i) /\
  (forall x u, In x i -> In (T u) (reads_of x) \/ In (T u) (writes_of x) -> In u (keys l)).
Proof.
  induction i as [|x i IH]; intros al life l E; cbn [create_lst_tmp] in E.
  - injection E as <- <-. split; [constructor; try constructor; try (intros ? []; fail); [intros ? ? (? & [] & _)|intros ? (? & [] & _)]|]. split; [intros ? ? (? & [] & _)|]. split; [cbn; tauto|intros ? ? []].
  - destruct (create_lst_tmp opt i (next_alias x al)) as [life1 l1] eqn:E1. destruct (IH _ _ _ E1) as (B1 & B2 & B3 & B4).
    destruct (inst_graph opt x al life1 l1 life l B1 B2 E) as (C1 & C2 & C3 & C4 & _ & _ & C5).
    split; [exact C1|]. split; [exact C2|]. split; [intros y; rewrite C4, B3; cbn [needed]; tauto|]. intros z u [->|Hz] H; [apply C5; exact H|]. apply C3, (B4 z u Hz H).
Qed.
