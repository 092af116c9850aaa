Require Import ZArith List Bool Lia Floats.SpecFloat Permutation Sorted.
Require Import Verif.Term_Model Verif.Term_Proofs Verif.Heap_Model Verif.Heap_Proofs.
Require Import Verif.Sort_Model Verif.Sort_Proofs Verif.Order_Spec.
Import ListNotations.
Open Scope Z_scope.

Lemma strcmp_lt s : forall t, strcmp s t < 0 <-> str_lt s t.
Proof.
  induction s as [|x s IH]; intros [|y t]; cbn [strcmp]; split; intros H; try lia.
  - exfalso. destruct H as [(y & r & E)|(p & x & s' & y & t' & E & _)]; destruct p || idtac; discriminate.
  - left. now exists y, t.
  - exfalso. destruct H as [(z & r & E)|(p & a & s' & y & t' & _ & E & _)]; [discriminate|].
    destruct p; discriminate.
  - destruct (Z.ltb_spec x y).
    + right. now exists [], x, s, y, t.
    + destruct (Z.ltb_spec y x); [lia|]. assert (x = y) by lia; subst y.
      apply IH in H. destruct H as [(z & r & ->)|(p & a & s' & b & t' & -> & -> & L)].
      * left. now exists z, r.
      * right. now exists (x :: p), a, s', b, t'.
  - destruct H as [(z & r & E)|(p & a & s' & b & t' & E1 & E2 & L)].
    + inversion E; subst. rewrite Z.ltb_irrefl. apply IH. left. eauto.
    + destruct p as [|c p]; cbn in E1, E2; inversion E1; inversion E2; subst.
      * destruct (Z.ltb_spec a b); lia.
      * rewrite Z.ltb_irrefl. apply IH. right. now exists p, a, s', b, t'.
Qed.

Lemma same_term_norm u : forall v, same_term u v <-> norm u = norm v.
Proof.
  induction u as [a|a|d|n|i|f us IH] using term_ind'; intros v; split; intros H.
  1,3,5,7,9,11: inversion H; subst; auto.
  - cbn. f_equal. destruct H1 as [->|(s1 & s2 & -> & ->)]; reflexivity.
  - cbn. f_equal. clear H. revert vs H3. induction IH as [|u us Hu IH IHl]; intros vs F;
      inversion F; subst; auto. cbn. f_equal; auto. now apply Hu.
  - destruct v; cbn in H; try discriminate. inversion H; constructor.
  - destruct v; cbn in H; try discriminate. inversion H; constructor.
  - destruct v as [| |d'| | |]; cbn in H; try discriminate. inversion H. constructor.
    unfold same_value. destruct d, d'; cbn in H1; try discriminate; auto. right; eauto.
  - destruct v; cbn in H; try discriminate. inversion H; constructor.
  - destruct v; cbn in H; try discriminate. inversion H; constructor.
  - destruct v as [| | | | |g vs]; cbn in H; try discriminate. inversion H; subst. constructor.
    clear H. revert vs H2. induction IH as [|u us Hu IH IHl]; intros [|v vs] F; cbn in F;
      inversion F; constructor; auto. now apply Hu.
Qed.

Lemma norm_idem_nan u : nan_free u -> True. Proof. auto. Qed.

Lemma fltcmp_lt d1 d2 : fltcmp d1 d2 < 0 <-> SFcompare d1 d2 = Some Lt.
Proof.
  rewrite fltcmp_alt. destruct (SFcompare d1 d2) as [[]|]; cbn; split; intros; try lia; try congruence.
Qed.

Section Order.
Variable name : Z -> list Z.
Hypothesis name_inj : forall i j, name i = name j -> i = j.

Lemma Forall2_length {A B} (R : A -> B -> Prop) l l' : Forall2 R l l' -> length l = length l'.
Proof. induction 1; cbn; auto. Qed.

Lemma tcmp_lt u : nan_free u -> forall v, nan_free v -> (tcmp name u v < 0 <-> term_lt name u v).
Proof.
  induction u as [a|a|d|n|i|f us IH] using term_ind'; intros Nu v Nv.
  1-5: destruct v; cbn [tcmp]; split; intros H;
       try lia; try (apply lt_rank; cbn; lia);
       try (inversion H; subst; cbn in *; try lia; fail).
  - apply lt_var; lia.
  - apply lt_fdv; lia.
  - apply lt_flt. now apply fltcmp_lt.
  - inversion H; subst; cbn in *; try lia. now apply fltcmp_lt.
  - apply lt_int; lia.
  - apply lt_atm. now apply strcmp_lt.
  - inversion H; subst; cbn in *; try lia. now apply strcmp_lt.
  - destruct v as [| | | | |g vs];
      try (cbn [tcmp]; split; intros H; [lia|inversion H; subst; cbn in *; lia]).
    rewrite tcmp_cmp. cbv zeta. apply nan_free_args in Nu, Nv.
    destruct (Z.eqb_spec (Z.of_nat (length us)) (Z.of_nat (length vs))) as [L|L]; cbn [negb].
    2: { split; intros H; [apply lt_arity; lia|]. inversion H; subst; cbn in *; try lia.
         rewrite !app_length in *. cbn in *.
         match goal with H : Forall2 _ _ _ |- _ => apply Forall2_length in H end. lia. }
    destruct (Z.eqb_spec f g) as [->|F]; cbn [negb].
    2: { split; intros H.
         - apply lt_name; [lia|]. now apply strcmp_lt.
         - inversion H; subst; cbn in *; try lia. now apply strcmp_lt. }
    split; intros H.
    + assert (X : exists us1 u us2 vs1 v vs2, us = us1 ++ u :: us2 /\ vs = vs1 ++ v :: vs2 /\
        Forall2 same_term us1 vs1 /\ length us2 = length vs2 /\ term_lt name u v).
      { revert vs L Nv H. induction us as [|u us IHl]; intros [|v vs] L Nv H; cbn in H, L; try lia.
        inversion IH; subst. inversion Nu; subst. inversion Nv; subst.
        destruct (Z.eqb_spec (tcmp name u v) 0) as [E|E]; cbn [negb] in H.
        - destruct (IHl H3 H5 vs ltac:(lia) H7 H) as (us1 & u' & us2 & vs1 & v' & vs2 & -> & -> & S1 & S2 & S3).
          exists (u :: us1), u', us2, (v :: vs1), v', vs2. repeat split; auto.
          constructor; auto. apply same_term_norm. now apply tcmp_eq in E.
        - exists [], u, us, [], v, vs. repeat split; auto; try lia. apply H2; auto. }
      destruct X as (us1 & u & us2 & vs1 & v & vs2 & -> & -> & S1 & S2 & S3). now apply lt_args.
    + inversion H as [? ? R| | | | | |? ? ? ? R|? ? ? ? R1 R2|? us1 u us2 vs1 v vs2 S1 S2 S3]; subst.
      * cbn in R; lia.
      * lia.
      * apply strcmp_lt in R2. rewrite strcmp_refl in R2. lia.
      * clear H L. revert vs1 IH Nu Nv S1. induction us1 as [|x us1 IHl]; intros vs1 IH Nu Nv S1.
        -- inversion S1; subst. cbn in *. inversion IH; subst. inversion Nu; subst. inversion Nv; subst.
           apply H1 in S3; auto.
           destruct (Z.eqb_spec (tcmp name u v) 0); cbn [negb]; auto; lia.
        -- inversion S1 as [|? y ? vs1' Sxy S1']; subst. cbn in *.
           inversion IH; subst. inversion Nu; subst. inversion Nv; subst.
           assert (tcmp name x y = 0) as ->. { apply tcmp_eq; auto. now apply same_term_norm. }
           cbn [Z.eqb negb]. apply IHl; auto.
Qed.

Lemma tcmp_same u v : nan_free u -> nan_free v -> (tcmp name u v = 0 <-> same_term u v).
Proof. intros. rewrite same_term_norm. now apply tcmp_eq. Qed.

(** the order is a total order modulo [same_term] *)
Lemma term_lt_irrefl u v : nan_free u -> nan_free v -> same_term u v -> ~ term_lt name u v.
Proof. intros Nu Nv S L. apply tcmp_same in S; auto. apply tcmp_lt in L; auto. lia. Qed.
Lemma term_lt_trans u v w : nan_free u -> nan_free v -> nan_free w ->
  term_lt name u v -> term_lt name v w -> term_lt name u w.
Proof.
  intros Nu Nv Nw H1 H2. apply tcmp_lt in H1, H2; auto. apply tcmp_lt; auto.
  destruct (tcmp_trans name name_inj u Nu v w Nv Nw ltac:(lia) ltac:(lia)) as [A B]. lia.
Qed.
Lemma term_lt_total u v : nan_free u -> nan_free v ->
  term_lt name u v \/ same_term u v \/ term_lt name v u.
Proof.
  intros Nu Nv. rewrite <- !tcmp_lt, <- tcmp_same by auto.
  pose proof (tcmp_anti name u Nu v Nv). lia.
Qed.
End Order.

(** ** heap level *)
Lemma cmp_args_mono cmp cmp' m n : forall a b x,
  (forall u v y, cmp u v = Ret y -> cmp' u v = Ret y) ->
  cmp_args cmp m n a b = Ret x -> cmp_args cmp' m n a b = Ret x.
Proof.
  induction n as [|n IH]; intros a b x H; cbn; auto.
  destruct (rd_word m a) as [u| |]; cbn [bind]; try discriminate.
  destruct (rd_word m b) as [v| |]; cbn [bind]; try discriminate.
  destruct (cmp u v) as [y| |] eqn:E; cbn [bind]; try discriminate.
  rewrite (H _ _ _ E). cbn [bind]. destruct (negb (y =? 0)); auto.
Qed.

Lemma Term_Compare_mono name f : forall f' m u v x, (f <= f')%nat ->
  Term_Compare name f m u v = Ret x -> Term_Compare name f' m u v = Ret x.
Proof.
  induction f as [|f IH]; intros f' m u v x L; [discriminate|].
  destruct f' as [|f']; [lia|]. cbn [Term_Compare].
  destruct (deref f m u) as [u'| |] eqn:Eu; cbn [bind]; try discriminate.
  rewrite (deref_mono _ _ _ _ Eu ltac:(discriminate) f' ltac:(lia)). cbn [bind].
  destruct (deref f m v) as [v'| |] eqn:Ev; cbn [bind]; try discriminate.
  rewrite (deref_mono _ _ _ _ Ev ltac:(discriminate) f' ltac:(lia)). cbn [bind].
  assert (M : forall n a b y, cmp_args (Term_Compare name f m) m n a b = Ret y ->
                        cmp_args (Term_Compare name f' m) m n a b = Ret y).
  { intros n a b y. apply cmp_args_mono. intros. apply IH; auto; lia. }
  destruct u'; auto.
  - destruct (rd_compound m v') as [[[[vf vn] va]|]| |]; cbn [bind]; auto.
    cbn [rd_compound bind]. repeat match goal with |- context [if ?c then _ else _] => destruct c end; auto.
  - destruct (rd_compound m v') as [[[[vf vn] va]|]| |]; cbn [bind]; auto.
    destruct (rd_compound m (STC a)) as [[[[uf un] ua]|]| |]; cbn [bind]; auto.
    repeat match goal with |- context [if ?c then _ else _] => destruct c end; auto.
Qed.

Lemma Term_Compare_det name f m u v x t1 t2 : den m u t1 -> den m v t2 ->
  Term_Compare name f m u v = Ret x -> x = tcmp name t1 t2.
Proof.
  intros D1 D2 H. destruct (Term_Compare_correct name m u t1 D1 v t2 D2) as [F HF].
  apply (Term_Compare_mono name f (Nat.max f F)) in H; [|lia].
  rewrite HF in H by lia. now inversion H.
Qed.

(** sorting words that denote terms *)
Section SortWords.
Variable name : Z -> list Z.
Hypothesis name_inj : forall i j, name i = name j -> i = j.
Variable cmp : word -> word -> Z.
Variable key : word -> term.
Variable ws : list word.
Hypothesis key_ok : forall w, In w ws -> nan_free (key w).
Hypothesis cmp_ok : forall u v, In u ws -> In v ws -> cmp u v = tcmp name (key u) (key v).

Let P w := In w ws.
Lemma ws_P : Forall P ws.
Proof. apply Forall_forall. auto. Qed.
Lemma sw_anti : forall x y, P x -> P y -> Z.sgn (cmp x y) = - Z.sgn (cmp y x).
Proof. intros x y Px Py. rewrite !cmp_ok by auto. apply tcmp_anti; auto. Qed.
Lemma sw_trans : forall x y z, P x -> P y -> P z ->
  cmp x y <= 0 -> cmp y z <= 0 -> cmp x z <= 0 /\ (cmp x z = 0 -> cmp x y = 0 /\ cmp y z = 0).
Proof. intros x y z Px Py Pz. rewrite !cmp_ok by auto. apply tcmp_trans; auto. Qed.

Lemma SS_map (R R' : word -> word -> Prop) l : incl l ws ->
  (forall u v, In u ws -> In v ws -> R u v -> R' u v) ->
  StronglySorted R l -> StronglySorted R' l.
Proof.
  intros I H S. induction S as [|x l S IH F]; constructor.
  - apply IH. intros z Hz. apply I. now right.
  - rewrite Forall_forall in *. intros y Hy. apply H; auto; apply I; cbn; auto.
Qed.

Lemma sw_keep ty d : ty <> O ->
  let r := Sort_List word cmp ty d ws in
  Permutation r ws /\
  StronglySorted (fun u v => ~ term_lt name (key v) (key u)) r /\
  forall w, In w ws ->
    filter (fun w' => cmp w w' =? 0) r = filter (fun w' => cmp w w' =? 0) ws.
Proof.
  intros T r. subst r. rewrite Sort_List_lsort.
  replace (negb (Nat.eqb ty 0)) with true by (symmetry; now apply negb_true_iff, PeanoNat.Nat.eqb_neq).
  pose proof (lsort_perm word cmp (length ws) ws) as PM.
  split; [exact PM|]. split.
  - apply (SS_map (fun x y => cmp x y <= 0)).
    + intros z. now apply Permutation_in.
    + intros u v Iu Iv L. rewrite cmp_ok in L by auto.
      rewrite <- tcmp_lt by auto. pose proof (tcmp_anti name (key u) (key_ok u Iu) (key v) (key_ok v Iv)). lia.
    + exact (lsort_sorted word cmp P sw_anti sw_trans true (length ws) ws (le_n _) ws_P).
  - intros w Iw. apply (lsort_stable word cmp P sw_anti sw_trans w (length ws) ws (le_n _) Iw ws_P).
Qed.

Lemma sw_dedup d :
  let r := Sort_List word cmp 0 d ws in
  incl r ws /\
  StronglySorted (fun u v => term_lt name (key u) (key v)) r /\
  (forall w, In w ws -> exists w', In w' r /\ same_term (key w) (key w')) /\
  (forall w, In w ws ->
    filter (fun w' => cmp w w' =? 0) r = firstn 1 (filter (fun w' => cmp w w' =? 0) ws)).
Proof.
  intros r. subst r. rewrite Sort_List_lsort. cbn [Nat.eqb negb].
  pose proof (lsort_Forall word cmp P false (length ws) ws ws_P) as I.
  rewrite Forall_forall in I. split; [exact I|].
  assert (F : forall w, In w ws ->
    filter (fun w' => cmp w w' =? 0) (lsort word cmp (length ws) false ws)
    = firstn 1 (filter (fun w' => cmp w w' =? 0) ws)).
  { intros w Iw. apply (lsort_first word cmp P sw_anti sw_trans w (length ws) ws (le_n _) Iw ws_P). }
  split; [|split; auto].
  - apply (SS_map (fun x y => cmp x y < 0)); auto.
    + intros u v Iu Iv L. rewrite cmp_ok in L by auto. apply tcmp_lt; auto.
    + exact (lsort_sorted word cmp P sw_anti sw_trans false (length ws) ws (le_n _) ws_P).
  - intros w Iw. specialize (F w Iw).
    destruct (filter (fun w' => cmp w w' =? 0) ws) as [|w1 l] eqn:E.
    { exfalso. assert (In w (filter (fun w' => cmp w w' =? 0) ws)).
      { apply filter_In. split; auto. apply Z.eqb_eq. apply (cmp_refl word cmp P sw_anti). auto. }
      rewrite E in H. auto. }
    assert (I1 : In w1 (filter (fun w' => cmp w w' =? 0) (lsort word cmp (length ws) false ws))).
    { rewrite F. now left. }
    apply filter_In in I1 as [I1 E1]. exists w1. split; auto.
    assert (W1 : In w1 ws) by (apply I; auto).
    apply Z.eqb_eq in E1. rewrite cmp_ok in E1; auto. apply tcmp_same in E1; auto.
Qed.
End SortWords.
