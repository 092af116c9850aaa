Require Import ZArith List Bool Lia Floats.SpecFloat.
Require Import Verif.Term_Model.
Import ListNotations.
Open Scope Z_scope.

(** induction principle for the nested type *)
Section Ind.
Variable P : term -> Prop.
Hypothesis HVar : forall a, P (TVar a).
Hypothesis HFdv : forall a, P (TFdv a).
Hypothesis HFlt : forall d, P (TFlt d).
Hypothesis HInt : forall n, P (TInt n).
Hypothesis HAtm : forall i, P (TAtm i).
Hypothesis HCmp : forall f args, Forall P args -> P (TCmp f args).
Fixpoint term_ind' (t : term) : P t :=
  match t with
  | TVar a => HVar a | TFdv a => HFdv a | TFlt d => HFlt d | TInt n => HInt n | TAtm i => HAtm i
  | TCmp f args =>
    HCmp f args ((fix go l : Forall P l :=
      match l with [] => Forall_nil P | x :: l => Forall_cons x (term_ind' x) (go l) end) args)
  end.
End Ind.

(** ** strcmp *)
Lemma strcmp_refl s : strcmp s s = 0.
Proof. induction s; cbn; auto. rewrite Z.ltb_irrefl. auto. Qed.

Lemma strcmp_eq s : forall t, strcmp s t = 0 -> s = t.
Proof.
  induction s as [|x s IH]; destruct t as [|y t]; cbn; intros H; try discriminate; auto.
  destruct (Z.ltb_spec x y); [discriminate|]. destruct (Z.ltb_spec y x); [discriminate|].
  f_equal; [lia|auto].
Qed.

Lemma strcmp_anti s : forall t, Z.sgn (strcmp s t) = - Z.sgn (strcmp t s).
Proof.
  induction s as [|x s IH]; destruct t as [|y t]; cbn; auto.
  destruct (Z.ltb_spec x y), (Z.ltb_spec y x); cbn; auto; lia.
Qed.

(** transitivity in a form that composes lexicographically *)
Definition tr3 (uv vw uw : Z) : Prop :=
  uv <= 0 -> vw <= 0 -> uw <= 0 /\ (uw = 0 -> uv = 0 /\ vw = 0).

Lemma strcmp_trans s : forall t r, tr3 (strcmp s t) (strcmp t r) (strcmp s r).
Proof.
  unfold tr3.
  induction s as [|x s IH]; destruct t as [|y t]; destruct r as [|z r]; cbn; try lia.
  destruct (Z.ltb_spec x y), (Z.ltb_spec y x), (Z.ltb_spec y z), (Z.ltb_spec z y),
    (Z.ltb_spec x z), (Z.ltb_spec z x); try lia. apply IH.
Qed.

(** ** floats *)
Definition not_nan (d : spec_float) : Prop := d <> S754_nan.

(** 0.0 and -0.0 compare as equal *)
Definition norm_flt (d : spec_float) : spec_float :=
  match d with S754_zero _ => S754_zero false | _ => d end.

Definition ztri (c : comparison) : Z := match c with Lt => -1 | Eq => 0 | Gt => 1 end.

Lemma fltcmp_alt d1 d2 : fltcmp d1 d2 =
  match SFcompare d1 d2 with Some c => ztri c | None => 1 end.
Proof.
  unfold fltcmp, SFltb, SFeqb. destruct (SFcompare d1 d2) as [[]|]; reflexivity.
Qed.

Lemma PcompareCont_Eq a b : Pos.compare_cont Eq a b = Pos.compare a b.
Proof. reflexivity. Qed.

Lemma pos_cmp_spec a b : ztri (Pos.compare a b) = Z.sgn (Zpos a - Zpos b).
Proof.
  destruct (Pos.compare_spec a b); cbn [ztri]; lia.
Qed.
Lemma z_cmp_spec a b : ztri (Z.compare a b) = Z.sgn (a - b).
Proof.
  destruct (Z.compare_spec a b); cbn [ztri]; lia.
Qed.

(** key of a float: class, exponent, mantissa; order is lexicographic *)
Definition fkey (d : spec_float) : Z * Z * Z :=
  match d with
  | S754_zero _ => (0, 0, 0)
  | S754_infinity s => (if s then -2 else 2, 0, 0)
  | S754_nan => (3, 0, 0)
  | S754_finite s m e =>
    if s then (-1, - e, - Zpos m) else (1, e, Zpos m)
  end.

Definition lex (a b : Z) : Z := if a =? 0 then b else a.
Definition kcmp (k1 k2 : Z * Z * Z) : Z :=
  let '(a1, b1, c1) := k1 in let '(a2, b2, c2) := k2 in
  lex (Z.sgn (a1 - a2)) (lex (Z.sgn (b1 - b2)) (Z.sgn (c1 - c2))).

Lemma ztri_opp c : ztri (CompOpp c) = - ztri c.
Proof. destruct c; reflexivity. Qed.

Lemma fltcmp_key d1 d2 : not_nan d1 -> not_nan d2 -> fltcmp d1 d2 = kcmp (fkey d1) (fkey d2).
Proof.
  intros N1 N2. rewrite fltcmp_alt. unfold not_nan in *.
  destruct d1 as [s1|s1| |s1 m1 e1]; destruct d2 as [s2|s2| |s2 m2 e2]; try congruence;
    repeat match goal with s : bool |- _ => destruct s end; try reflexivity.
  - cbn [SFcompare fkey kcmp]. change (lex (Z.sgn (-1 - -1)) ?x) with x.
    pose proof (z_cmp_spec e1 e2) as C. destruct (e1 ?= e2); cbn [ztri] in *.
    + rewrite <- pos_cmp_spec || idtac.
      pose proof (pos_cmp_spec m1 m2) as D. rewrite PcompareCont_Eq.
      unfold lex. replace (Z.sgn (- e1 - - e2)) with 0 by lia. cbn [Z.eqb].
      rewrite ztri_opp, D. lia.
    + unfold lex. replace (Z.sgn (- e1 - - e2)) with 1 by lia. reflexivity.
    + unfold lex. replace (Z.sgn (- e1 - - e2)) with (-1) by lia. reflexivity.
  - cbn [SFcompare fkey kcmp]. change (lex (Z.sgn (1 - 1)) ?x) with x.
    pose proof (z_cmp_spec e1 e2) as C. destruct (e1 ?= e2); cbn [ztri] in *.
    + pose proof (pos_cmp_spec m1 m2) as D. rewrite PcompareCont_Eq.
      unfold lex. replace (Z.sgn (e1 - e2)) with 0 by lia. cbn [Z.eqb]. rewrite D. lia.
    + unfold lex. replace (Z.sgn (e1 - e2)) with (-1) by lia. reflexivity.
    + unfold lex. replace (Z.sgn (e1 - e2)) with 1 by lia. reflexivity.
Qed.

Lemma kcmp_anti k1 k2 : kcmp k1 k2 = - kcmp k2 k1.
Proof.
  destruct k1 as [[a1 b1] c1], k2 as [[a2 b2] c2]. unfold kcmp, lex.
  repeat match goal with |- context [?x =? 0] => destruct (Z.eqb_spec x 0) end; lia.
Qed.
Lemma tr3_lex x1 x2 x3 y1 y2 y3 : (x1 = 0 -> x2 = 0 -> x3 = 0) ->
  tr3 x1 x2 x3 -> tr3 y1 y2 y3 -> tr3 (lex x1 y1) (lex x2 y2) (lex x3 y3).
Proof.
  unfold tr3, lex. intros.
  destruct (Z.eqb_spec x1 0), (Z.eqb_spec x2 0), (Z.eqb_spec x3 0); lia.
Qed.
Lemma kcmp_trans k1 k2 k3 : tr3 (kcmp k1 k2) (kcmp k2 k3) (kcmp k1 k3).
Proof.
  destruct k1 as [[a1 b1] c1], k2 as [[a2 b2] c2], k3 as [[a3 b3] c3]. unfold kcmp.
  apply tr3_lex; [lia|unfold tr3; lia|].
  apply tr3_lex; [lia|unfold tr3; lia|]. unfold tr3; lia.
Qed.
Lemma kcmp_eq k1 k2 : kcmp k1 k2 = 0 <-> k1 = k2.
Proof.
  destruct k1 as [[a1 b1] c1], k2 as [[a2 b2] c2]. unfold kcmp, lex. split.
  - repeat match goal with |- context [?x =? 0] => destruct (Z.eqb_spec x 0) end; intros;
      repeat f_equal; lia.
  - intros E; inversion E; subst. rewrite !Z.sub_diag. reflexivity.
Qed.

Lemma fkey_norm d1 d2 : not_nan d1 -> not_nan d2 ->
  (fkey d1 = fkey d2 <-> norm_flt d1 = norm_flt d2).
Proof.
  intros N1 N2. unfold not_nan in *.
  destruct d1 as [s1|s1| |s1 m1 e1]; destruct d2 as [s2|s2| |s2 m2 e2]; try congruence;
    repeat match goal with s : bool |- _ => destruct s end; cbn; split; intros E; try congruence;
    inversion E; subst; f_equal; lia.
Qed.

Lemma fltcmp_trans d1 d2 d3 : not_nan d1 -> not_nan d2 -> not_nan d3 ->
  tr3 (fltcmp d1 d2) (fltcmp d2 d3) (fltcmp d1 d3).
Proof. intros. rewrite !fltcmp_key by auto. apply kcmp_trans. Qed.

Lemma fltcmp_anti d1 d2 : not_nan d1 -> not_nan d2 -> fltcmp d1 d2 = - fltcmp d2 d1.
Proof. intros. rewrite !fltcmp_key by auto. apply kcmp_anti. Qed.

Lemma fltcmp_eq d1 d2 : not_nan d1 -> not_nan d2 ->
  (fltcmp d1 d2 = 0 <-> norm_flt d1 = norm_flt d2).
Proof. intros. rewrite fltcmp_key, kcmp_eq by auto. now apply fkey_norm. Qed.

(** ** terms *)
(** no NaN inside *)
Fixpoint nan_free (t : term) : Prop :=
  match t with
  | TFlt d => not_nan d
  | TCmp _ args => (fix all l := match l with [] => True | x :: l => nan_free x /\ all l end) args
  | _ => True
  end.
(** identify 0.0 and -0.0 *)
Fixpoint norm (t : term) : term :=
  match t with
  | TFlt d => TFlt (norm_flt d)
  | TCmp f args => TCmp f (map norm args)
  | t => t
  end.

Lemma nan_free_args f args : nan_free (TCmp f args) <-> Forall nan_free args.
Proof.
  cbn. induction args; split; intros H; auto.
  - destruct H; constructor; auto. now apply IHargs.
  - inversion H; subst. split; auto. now apply IHargs.
Qed.

Section Order.
Variable name : Z -> list Z.
Notation tcmp := (tcmp name).
Notation tcmp_args := (tcmp_args name).

Lemma tcmp_cmp f us g vs : tcmp (TCmp f us) (TCmp g vs) =
  let nu := Z.of_nat (length us) in
  let nv := Z.of_nat (length vs) in
  if negb (nu =? nv) then nu - nv
  else if negb (f =? g) then strcmp (name f) (name g)
  else tcmp_args us vs.
Proof.
  reflexivity.
Qed.

(** interned atoms: distinct indices have distinct names *)
Hypothesis name_inj : forall i j, name i = name j -> i = j.

Lemma tcmp_eq u : nan_free u -> forall v, nan_free v -> (tcmp u v = 0 <-> norm u = norm v).
Proof.
  induction u as [a|a|d|n|i|f us IH] using term_ind'; intros Nu v Nv.
  1-5: destruct v; cbn; try (split; intros; discriminate).
  - split; intros H; [f_equal; lia|inversion H; lia].
  - split; intros H; [f_equal; lia|inversion H; lia].
  - cbn in *. rewrite fltcmp_eq by auto. split; congruence.
  - split; intros H; [f_equal; lia|inversion H; lia].
  - split; intros H.
    + f_equal. apply name_inj, strcmp_eq; auto.
    + inversion H. apply strcmp_refl.
  - destruct v as [| | | | |g vs]; try (cbn; split; intros; discriminate).
    rewrite tcmp_cmp. cbv zeta. apply nan_free_args in Nu, Nv. cbn [norm].
    destruct (Z.eqb_spec (Z.of_nat (length us)) (Z.of_nat (length vs))) as [L|L]; cbn [negb].
    2: { split; intros H; [lia|]. inversion H as [[H1 H2]]. apply (f_equal (@length term)) in H2.
         rewrite !map_length in H2. lia. }
    destruct (Z.eqb_spec f g) as [->|F]; cbn [negb].
    2: { split; intros H; [|inversion H; congruence]. exfalso. apply F, name_inj, strcmp_eq; auto. }
    transitivity (map norm us = map norm vs).
    + clear g. revert vs L Nv. induction us as [|u us IHl]; intros [|v vs] L Nv;
        try (cbn in L; lia); [cbn; tauto|].
      inversion IH; subst. inversion Nu; subst. inversion Nv; subst.
      specialize (H1 H3 v H5). cbn [Term_Model.tcmp_args map].
      destruct (Z.eqb_spec (tcmp u v) 0) as [E|E]; cbn [negb].
      * rewrite IHl; auto; [|cbn in L; lia]. apply H1 in E. rewrite E. split; congruence.
      * split; [congruence|]. intros X. inversion X. tauto.
    + split; congruence.
Qed.

Lemma tcmp_anti u : nan_free u -> forall v, nan_free v ->
  Z.sgn (tcmp u v) = - Z.sgn (tcmp v u).
Proof.
  induction u as [a|a|d|n|i|f us IH] using term_ind'; intros Nu v Nv.
  1-5: destruct v; cbn; try lia.
  - cbn in *. rewrite (fltcmp_anti d d0) by auto. lia.
  - apply strcmp_anti.
  - destruct v as [| | | | |g vs]; try (cbn; lia).
    rewrite !tcmp_cmp. cbv zeta. rewrite (Z.eqb_sym (Z.of_nat (length vs))), (Z.eqb_sym g).
    apply nan_free_args in Nu, Nv.
    destruct (Z.eqb_spec (Z.of_nat (length us)) (Z.of_nat (length vs))) as [L|L]; cbn [negb]; [|lia].
    destruct (Z.eqb_spec f g) as [->|F]; cbn [negb]; [|apply strcmp_anti].
    clear g. revert vs L Nv. induction us as [|u us IHl]; intros [|v vs] L Nv;
      try (cbn in L; lia); [cbn; reflexivity|].
    inversion IH; subst. inversion Nu; subst. inversion Nv; subst.
    specialize (H1 H3 v H5). cbn [Term_Model.tcmp_args].
    destruct (Z.eqb_spec (tcmp u v) 0) as [E|E], (Z.eqb_spec (tcmp v u) 0) as [E'|E'];
      cbn [negb]; try lia.
    apply IHl; auto. cbn in L; lia.
Qed.

Lemma tcmp_trans u : nan_free u -> forall v w, nan_free v -> nan_free w ->
  tr3 (tcmp u v) (tcmp v w) (tcmp u w).
Proof.
  induction u as [a|a|d|n|i|f us IH] using term_ind'; intros Nu v w Nv Nw.
  1-5: destruct v; destruct w; unfold tr3; cbn; try lia.
  - cbn in *. apply fltcmp_trans; auto.
  - apply strcmp_trans.
  - destruct v as [| | | | |g vs]; destruct w as [| | | | |h ws]; try (unfold tr3; cbn; lia).
    rewrite !tcmp_cmp. cbv zeta.
    apply nan_free_args in Nu, Nv, Nw.
    destruct (Z.eqb_spec (Z.of_nat (length us)) (Z.of_nat (length vs))) as [L1|L1]; cbn [negb];
    destruct (Z.eqb_spec (Z.of_nat (length vs)) (Z.of_nat (length ws))) as [L2|L2]; cbn [negb];
    destruct (Z.eqb_spec (Z.of_nat (length us)) (Z.of_nat (length ws))) as [L3|L3]; cbn [negb];
      try (unfold tr3; lia).
    destruct (Z.eqb_spec f g) as [F1|F1]; cbn [negb];
    destruct (Z.eqb_spec g h) as [F2|F2]; cbn [negb];
    destruct (Z.eqb_spec f h) as [F3|F3]; cbn [negb]; subst; try congruence.
    + (* names equal: arguments *)
      clear L3. revert vs ws L1 L2 Nv Nw.
      induction us as [|u us IHl]; intros [|v vs] [|w ws] L1 L2 Nv Nw;
        try (cbn in L1, L2; lia); [unfold tr3; cbn; lia|].
      inversion IH; subst. inversion Nu; subst. inversion Nv; subst. inversion Nw; subst.
      specialize (H1 H3 v w H5 H7). cbn [Term_Model.tcmp_args]. unfold tr3 in *.
      assert (X := IHl H2 H4 vs ws ltac:(cbn in L1; lia) ltac:(cbn in L2; lia) H6 H8).
      destruct (Z.eqb_spec (tcmp u v) 0) as [E1|E1], (Z.eqb_spec (tcmp v w) 0) as [E2|E2],
        (Z.eqb_spec (tcmp u w) 0) as [E3|E3]; cbn [negb]; intros A1 A2; try lia;
        try (specialize (H1 ltac:(lia) ltac:(lia)); lia).
    + unfold tr3; intros A B.
      assert (strcmp (name g) (name h) <> 0) by (intros E; apply F3, name_inj, strcmp_eq; auto). lia.
    + unfold tr3; intros A B.
      assert (strcmp (name f) (name h) <> 0) by (intros E; apply F3, name_inj, strcmp_eq; auto). lia.
    + (* f = h, g between: impossible *)
      unfold tr3; intros A B. pose proof (strcmp_trans (name h) (name g) (name h)) as T.
      specialize (T A B). rewrite strcmp_refl in T.
      exfalso. apply F1. apply name_inj, strcmp_eq. lia.
    + unfold tr3; intros A B.
      assert (strcmp (name f) (name h) <> 0).
      { intros E. apply F3, name_inj, strcmp_eq; auto. }
      pose proof (strcmp_trans (name f) (name g) (name h) A B). lia.
Qed.
End Order.
