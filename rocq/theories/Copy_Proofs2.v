(** Copy_Term builds a variant in a fresh region. *)
Require Import ZArith List Bool Lia PeanoNat.
Require Import Verif.Term_Model Verif.Term_Proofs Verif.Heap_Model Verif.Heap_Proofs Verif.Unify_Model Verif.Unify_Spec Verif.Unify_Proofs.
Require Import Verif.Binding_Model Verif.Copy_Model Verif.Copy_Spec.
Import ListNotations.
Open Scope Z_scope.

(** ** larger memories *)
Definition sub (m m' : mem) : Prop := forall x c, m x = Some c -> m' x = Some c.
Lemma den_sub_both m m' (S1 : sub m m') :
  (forall w t, den m w t -> den m' w t) /\ (forall a ts, den_args m a ts -> den_args m' a ts).
Proof.
  apply (den_both m (fun w t _ => den m' w t) (fun a ts _ => den_args m' a ts)); intros;
    try (econstructor; eauto; fail).
Qed.
Lemma den_args_sub m m' a ts : sub m m' -> den_args m a ts -> den_args m' a ts.
Proof. intros S1. apply (den_sub_both m m' S1). Qed.

Lemma region_in lo hi m x : lo <= x < hi -> region lo hi m x = m x.
Proof. intros R. unfold region. destruct (Z.leb_spec lo x), (Z.ltb_spec x hi); cbn; auto; lia. Qed.
Lemma region_some lo hi m x c : region lo hi m x = Some c -> lo <= x < hi /\ m x = Some c.
Proof. unfold region. destruct (Z.leb_spec lo x), (Z.ltb_spec x hi); cbn; try discriminate. auto. Qed.

(** cells reached through lists and structures only *)
Inductive sreach (m : mem) : addr -> addr -> Prop :=
| sr_refl x : sreach m x x
| sr_flt x q : m x = Some (Word (FLT q)) -> sreach m x q
| sr_fun x q : m x = Some (Word (STC q)) -> sreach m x q
| sr_lst x q i y : m x = Some (Word (LST q)) -> 0 <= i < 2 -> sreach m (q + i) y -> sreach m x y
| sr_stc x q f n i y : m x = Some (Word (STC q)) -> m q = Some (Func f n) -> 0 <= i < Z.of_nat n ->
    sreach m (q + 1 + i) y -> sreach m x y.
Lemma sreach_sub m m' x y : sub m m' -> sreach m x y -> sreach m' x y.
Proof. intros S1. induction 1; [constructor|apply sr_flt; auto|apply sr_fun; auto|eapply sr_lst; eauto|eapply sr_stc; eauto]. Qed.

(** ** renaming *)
Definition rho (m : mem) (a : addr) : addr :=
  match m a with Some (Word (REF d)) => d | _ => a end.
Lemma ren_ext f g t : (forall a, In a (occs false t) -> f a = g a) -> ren f t = ren g t.
Proof.
  induction t as [a|a|d|n|i|h ts IH] using term_ind'; intros Q; cbn; auto.
  - f_equal. apply Q. cbn. auto.
  - f_equal. cbn in Q. induction IH as [|t ts H1 _ IH]; cbn; auto. f_equal.
    + apply H1. intros a I. apply Q. cbn. apply in_or_app. auto.
    + apply IH. intros a I. apply Q. cbn. apply in_or_app. auto.
Qed.

Definition sumw (ts : list term) : Z := fold_right Z.add 0 (map words_of ts).
Lemma words_pos t : 1 <= words_of t.
Proof.
  induction t as [a|a|d|n|i|h ts IH] using term_ind'; cbn; try lia.
  assert (0 <= fold_right Z.add 0 (map words_of ts)).
  { clear - IH. induction IH; cbn; lia. }
  destruct ((h =? ATOM_DOT) && _); lia.
Qed.
Lemma sumw_len ts : Z.of_nat (length ts) <= sumw ts.
Proof. induction ts as [|t ts IH]; cbn; [lia|]. unfold sumw in IH. pose proof (words_pos t). lia. Qed.

(** ** Term_Size *)
Lemma Size_both L fd m (W : wf L m) :
  (forall w t, den m w t -> wf_word L m w -> nofd t = true -> exists F, forall fuel, (F <= fuel)%nat ->
     Term_Size fd fuel m w = Ret (words_of t)) /\
  (forall a ts, den_args m a ts -> ts <> [] -> forallb nofd ts = true -> exists F, forall fuel, (F <= fuel)%nat ->
     size_args (Term_Size fd fuel m) (length ts) m a = Ret (sumw ts)).
Proof.
  apply (den_both m
    (fun w t _ => wf_word L m w -> nofd t = true -> exists F, forall fuel, (F <= fuel)%nat ->
     Term_Size fd fuel m w = Ret (words_of t))
    (fun a ts _ => ts <> [] -> forallb nofd ts = true -> exists F, forall fuel, (F <= fuel)%nat ->
     size_args (Term_Size fd fuel m) (length ts) m a = Ret (sumw ts))).
  - intros a E Ww _. destruct (derefs_fun m (REF a) (REF a) (drf_self m a E)) as [F HF].
    exists (S F). intros [|f] Hf; [lia|]. cbn [Term_Size]. rewrite HF by lia. reflexivity.
  - intros b w t E N D IH Wb Nf. destruct (IH (wf_cell _ _ W _ _ E) Nf) as [F H].
    destruct (den_derefs _ _ _ D) as (w' & Dw & _).
    destruct (derefs_fun _ _ _ Dw) as [F1 H1].
    destruct (derefs_fun _ _ _ (drf_step m b w w' E N Dw)) as [F2 H2].
    exists (S (F + F1 + F2)). intros [|f] Lf; [lia|]. specialize (H (S f) ltac:(lia)).
    cbn [Term_Size] in *. rewrite H1 in H by lia. rewrite H2 by lia. exact H.
  - discriminate.
  - intros b d _ Wb _. exists 2%nat. intros [|[|f]] Lf; try lia. reflexivity.
  - intros n Wb _. exists 2%nat. intros [|[|f]] Lf; try lia. reflexivity.
  - intros n Wb _. exists 2%nat. intros [|[|f]] Lf; try lia. reflexivity.
  - intros b t1 t2 D IH Wb Nf. destruct (IH ltac:(discriminate) Nf) as [F H].
    exists (S (S F)). intros [|[|f]] Lf; try lia. specialize (H (S f) ltac:(lia)).
    change (Term_Size fd (S (S f)) m (LST b)) with (do x <- size_args (Term_Size fd (S f) m) 2 m b; Ret (1 + x)).
    cbn [length] in H. rewrite H. reflexivity.
  - intros b f ts E D IH (g' & k & E' & Nk & Nd & _) Nf. rewrite E in E'. injection E' as -> <-.
    destruct (IH ltac:(destruct ts; [cbn in Nk; lia|discriminate]) Nf) as [F H].
    exists (S (S F)). intros [|[|f']] Lf; try lia. specialize (H (S f') ltac:(lia)).
    change (Term_Size fd (S (S f')) m (STC b)) with
      (do fn <- rd_func m b; do x <- size_args (Term_Size fd (S f') m) (snd fn) m (b + 1); Ret (2 + x)).
    unfold rd_func. rewrite E. cbn [bind snd]. rewrite H. cbn [bind words_of].
    destruct (Z.eqb_spec g' ATOM_DOT), (Nat.eqb_spec (length ts) 2); cbn [andb]; auto. tauto.
  - congruence.
  - intros b w t ts E D IHw Ds IH _ Nf. cbn [forallb] in Nf. apply andb_true_iff in Nf as [Nf1 Nf2].
    destruct (IHw (wf_cell _ _ W _ _ E) Nf1) as [F H]. destruct ts as [|t' ts].
    + exists F. intros f Lf. cbn [size_args length]. unfold rd_word. rewrite E. cbn [bind].
      rewrite H by lia. cbn. f_equal. lia.
    + destruct (IH ltac:(discriminate) Nf2) as [F2 H2]. exists (F + F2)%nat. intros f Lf.
      change (length (t :: t' :: ts)) with (S (S (length ts))).
      specialize (H2 f ltac:(lia)). change (length (t' :: ts)) with (S (length ts)) in H2.
      cbn [size_args] in *. unfold rd_word at 1. rewrite E. cbn [bind].
      rewrite H by lia. cbn [bind]. rewrite H2. reflexivity.
Qed.

Section Copy.
Variables (L : addr) (m0 : mem) (lim : nat) (base top : addr).
Hypothesis W : wf L m0.
Hypothesis Free : forall x, base <= x < top -> m0 x = None.

Definition dom (s : cst) : list addr := map snd (cvars s).
Definition wordish (m : mem) (x : addr) : Prop := forall c, m x = Some c -> exists w, c = Word w.

(** a cell of the copy, [lo..hi) being the part allocated so far *)
Definition okc (m : mem) (lo hi : addr) (c : cell) : Prop :=
  match c with
  | Word (REF d) => lo <= d < hi /\ m d = Some (Word (REF d))
  | Word (LST q) => lo <= q /\ q + 1 < hi /\ forall i, 0 <= i < 2 -> wordish m (q + i)
  | Word (STC q) => exists f n, lo <= q /\ m q = Some (Func f n) /\ (1 <= n)%nat /\
      ~ (f = ATOM_DOT /\ n = 2%nat) /\ q + Z.of_nat n < hi /\
      forall i, 0 <= i < Z.of_nat n -> wordish m (q + 1 + i)
  | Word (FLT q) => lo <= q < hi /\ exists d, m q = Some (Dbl d) /\ not_nan d
  | Word (FDV _) => False
  | _ => True
  end.

Record CI (s : cst) : Prop := {
  ci_p : base <= cp s <= top;
  ci_out : forall x, ~ (base <= x < cp s) -> ~ In x (dom s) -> cm s x = m0 x;
  ci_var : forall w a, In (w, a) (cvars s) -> w = REF a /\ m0 a = Some (Word (REF a)) /\
    exists d, cm s a = Some (Word (REF d)) /\ base <= d < cp s /\ cm s d = Some (Word (REF d));
  ci_nd : NoDup (dom s);
  ci_inj : forall a1 a2 d, In a1 (dom s) -> In a2 (dom s) ->
    cm s a1 = Some (Word (REF d)) -> cm s a2 = Some (Word (REF d)) -> a1 = a2;
  ci_cell : forall x c, base <= x < cp s -> cm s x = Some c -> okc (cm s) base (cp s) c
}.

Lemma in_dom s a : In a (dom s) -> exists w, In (w, a) (cvars s).
Proof. intros I. apply in_map_iff in I as ([w b] & Q & I). cbn in Q. subst. eauto. Qed.
Lemma dom_var s a : CI s -> In a (dom s) -> m0 a = Some (Word (REF a)) /\
    exists d, cm s a = Some (Word (REF d)) /\ base <= d < cp s /\ cm s d = Some (Word (REF d)).
Proof. intros C I. destruct (in_dom s a I) as [w Iw]. apply (ci_var s C w a Iw). Qed.
Lemma dom_out s a : CI s -> In a (dom s) -> ~ (base <= a < top).
Proof. intros C I R. destruct (dom_var s a C I) as [E _]. rewrite Free in E by auto. discriminate. Qed.

(** a cell of the original term which is not an unbound variable is untouched *)
Lemma orig_cell s x c : CI s -> m0 x = Some c -> c <> Word (REF x) -> cm s x = Some c.
Proof.
  intros C E N. rewrite <- E. apply (ci_out s C).
  - intros R. destruct (ci_p s C). rewrite Free in E by lia. discriminate.
  - intros I. destruct (dom_var s x C I) as [E' _]. congruence.
Qed.

Lemma copy_derefs s w d : CI s -> derefs m0 w d ->
  (forall a, d = REF a -> ~ In a (dom s) -> derefs (cm s) w (REF a) /\ cm s a = Some (Word (REF a))) /\
  (forall a b, d = REF a -> In a (dom s) -> cm s a = Some (Word (REF b)) -> derefs (cm s) w (REF b)) /\
  ((forall a, d <> REF a) -> derefs (cm s) w d).
Proof.
  intros C Dd. induction Dd as [a E|a w d E N Dd IH|w N].
  - split; [|split].
    + intros x Q Nx. injection Q as <-. assert (Q : cm s a = Some (Word (REF a))).
      { rewrite <- E. apply (ci_out s C); auto. intros R. destruct (ci_p s C). rewrite Free in E by lia. discriminate. }
      split; auto. now apply drf_self.
    + intros x b Q Ix Ex. injection Q as <-. destruct (dom_var s a C Ix) as (_ & d & Ed & Rd & Sd).
      rewrite Ed in Ex. injection Ex as <-. eapply drf_step; eauto; [|now apply drf_self].
      intros Q. injection Q as ->. exact (dom_out s a C Ix ltac:(destruct (ci_p s C); lia)).
    + intros Q. now destruct (Q a).
  - assert (Ec : cm s a = Some (Word w)) by (apply orig_cell; auto; congruence).
    destruct IH as (I1 & I2 & I3). split; [|split].
    + intros x Q Nx. destruct (I1 x Q Nx). split; auto. eapply drf_step; eauto.
    + intros x b Q Ix Ex. eapply drf_step; eauto.
    + intros Q. eapply drf_step; eauto.
  - split; [|split]; [intros a -> _; now destruct (N a)|intros a b -> _ _; now destruct (N a)|].
    intros _. now apply drf_other.
Qed.

Lemma okc_mono m m' hi hi' c : hi <= hi' -> okc m base hi c ->
  (forall x c, base <= x < hi -> m x = Some c -> m' x = Some c) ->
  (forall x, base <= x < hi -> m x = None -> wordish m' x) -> okc m' base hi' c.
Proof.
  intros Hh O K1 K2.
  assert (K : forall x, base <= x < hi -> wordish m x -> wordish m' x).
  { intros x R Wx. destruct (m x) as [c0|] eqn:Q; [|auto]. intros c1 E1. rewrite (K1 x c0 R Q) in E1.
    injection E1 as <-. auto. }
  destruct c as [[d|q|q|i|q|q|n]|f n|d]; cbn in *; auto.
  - destruct O as [R E]. split; [lia|]. auto.
  - destruct O as (R1 & R2 & Ws). split; [auto|]. split; [lia|]. intros i Hi. apply K; auto. lia.
  - destruct O as (f & n & R1 & E & Hn & Nd & R2 & Ws). exists f, n. split; [auto|].
    split; [apply K1; auto; lia|]. split; [auto|]. split; [auto|]. split; [lia|].
    intros i Hi. apply K; auto. lia.
  - destruct O as (R & d & E & Nn). split; [lia|]. exists d. auto.
Qed.

(** allocation of [cp s .. cp s2) and first write of [dst] *)
Lemma CI_ext s s2 dst w0 : CI s -> base <= dst < cp s -> cm s dst = None ->
  cp s <= cp s2 <= top -> cvars s2 = cvars s ->
  (forall x, x <> dst -> ~ (cp s <= x < cp s2) -> cm s2 x = cm s x) ->
  cm s2 dst = Some (Word w0) -> okc (cm s2) base (cp s2) (Word w0) ->
  (forall x c, cp s <= x < cp s2 -> cm s2 x = Some c -> okc (cm s2) base (cp s2) c) -> CI s2.
Proof.
  intros C Rd Nd Hp Hv K Ed Od On.
  assert (Kd : forall a, In a (dom s) -> cm s2 a = cm s a).
  { intros a I. pose proof (dom_out s a C I). destruct (ci_p s C). apply K; lia. }
  assert (Ks : forall x c, base <= x < cp s -> cm s x = Some c -> cm s2 x = Some c).
  { intros x c R E. rewrite K; auto; [congruence|lia]. }
  split.
  - destruct (ci_p s C). lia.
  - unfold dom. rewrite Hv. intros x Rx Nx. destruct (ci_p s C). rewrite K by lia. apply (ci_out s C); auto. lia.
  - rewrite Hv. intros w a I. destruct (ci_var s C w a I) as (-> & E & d & E1 & R1 & E2).
    split; auto. split; auto. exists d. rewrite Kd by (apply in_map_iff; exists (REF a, a); auto).
    split; auto. split; [lia|]. auto.
  - unfold dom. rewrite Hv. apply (ci_nd s C).
  - unfold dom. rewrite Hv. fold (dom s). intros a1 a2 d I1 I2. rewrite !Kd by auto. apply (ci_inj s C); auto.
  - intros x c Rx E. destruct (Z_lt_dec x (cp s)); [|apply (On x); auto; lia].
    destruct (Z.eq_dec x dst) as [->|Nx]; [rewrite Ed in E; injection E as <-; auto|].
    rewrite K in E by (auto; lia). apply (okc_mono (cm s) (cm s2) (cp s) (cp s2)); auto; [lia| |].
    + apply (ci_cell s C x); auto. lia.
    + intros y Ry Ny c' E'. destruct (Z.eq_dec y dst) as [->|N']; [rewrite Ed in E'; injection E' as <-; eauto|].
      rewrite K in E' by (auto; lia). congruence.
Qed.

(** ** what copying [ts] to the cells from [q] does *)
Definition reg (s : cst) : mem := region base (cp s) (cm s).
Record Post (s s' : cst) (q : addr) (ts : list term) : Prop := {
  po_ci : CI s';
  po_p : cp s' = cp s + sumw ts - Z.of_nat (length ts);
  po_frame : forall x, base <= x < cp s -> ~ (q <= x < q + Z.of_nat (length ts)) -> cm s' x = cm s x;
  po_dom : forall a, In a (dom s') <-> In a (dom s) \/ In a (flat_map (occs false) ts);
  po_keep : forall a, In a (dom s) -> cm s' a = cm s a;
  po_def : forall x, cp s <= x < cp s' -> cm s' x <> None;
  po_den : den_args (reg s') q (map (ren (rho (cm s'))) ts);
  po_reach : forall x, cp s <= x < cp s' ->
    exists i, 0 <= i < Z.of_nat (length ts) /\ sreach (reg s') (q + i) x
}.
(** the error: the table is full and another variable has been met *)
Record Full (s s' : cst) (ts : list term) : Prop := {
  fu_ci : CI s';
  fu_lim : (lim <= length (dom s'))%nat;
  fu_dom : incl (dom s') (dom s ++ flat_map (occs false) ts);
  fu_keep : forall a, In a (dom s) -> In a (dom s') /\ cm s' a = cm s a;
  fu_new : exists a, In a (flat_map (occs false) ts) /\ ~ In a (dom s')
}.
Definition res_ok (s : cst) (q : addr) (ts : list term) (r : cres) : Prop :=
  match r with COk s' => Post s s' q ts | CTooMany s' => Full s s' ts | CFd => False end.

Definition pre (s : cst) (q : addr) (ts : list term) : Prop :=
  CI s /\ base <= q /\ q + Z.of_nat (length ts) <= cp s /\
  (forall x, q <= x < q + Z.of_nat (length ts) -> cm s x = None) /\
  cp s + sumw ts - Z.of_nat (length ts) <= top /\ forallb nofd ts = true.

Lemma above_none s x : CI s -> cp s <= x < top -> cm s x = None.
Proof.
  intros C R. rewrite (ci_out s C).
  - apply Free. destruct (ci_p s C). lia.
  - lia.
  - intros I. apply (dom_out s x C I). destruct (ci_p s C). lia.
Qed.

Lemma rho_some m a d : m a = Some (Word (REF d)) -> rho m a = d.
Proof. intros E. unfold rho. now rewrite E. Qed.

(** a constant, or a reference to a copy *)
Lemma post_plain s dst t w : pre s dst [t] -> words_of t = 1 ->
  okc (store (cm s) dst (Word w)) base (cp s) (Word w) ->
  den (reg (cstore s dst (Word w))) w (ren (rho (cm (cstore s dst (Word w)))) t) ->
  (forall a, In a (occs false t) -> In a (dom s)) ->
  Post s (cstore s dst (Word w)) dst [t].
Proof.
  intros (C & R1 & R2 & Hn & Ht & Nf) Hw Ok Hd Ho. cbn [length Z.of_nat] in *. change (Z.of_nat 1) with 1 in *.
  assert (Nd : cm s dst = None) by (apply Hn; lia).
  assert (C' : CI (cstore s dst (Word w))).
  { apply (CI_ext s _ dst w); cbn [cstore cm cvars cp]; auto; try lia.
    - destruct (ci_p s C). lia.
    - intros x N _. now rewrite store_other.
    - apply store_same. }
  split; auto.
  - unfold sumw. cbn. lia.
  - intros x Rx Nx. cbn. rewrite store_other; auto. cbn in Nx. lia.
  - intros a. cbn. rewrite app_nil_r. split; [auto|intros [I|I]; auto].
  - intros a I. cbn. rewrite store_other; auto. intros ->. apply (dom_out s dst C I). destruct (ci_p s C). lia.
  - cbn. lia.
  - cbn [map]. econstructor; [|exact Hd|constructor].
    unfold reg. cbn. rewrite region_in by lia. apply store_same.
  - cbn. lia.
Qed.

(** a variable met for the first time *)
Lemma post_var s dst a : pre s dst [TVar a] -> m0 a = Some (Word (REF a)) -> ~ In a (dom s) ->
  Post s (Cst (store (store (cm s) dst (Word (REF dst))) a (Word (REF dst))) ((REF a, a) :: cvars s) (cp s)) dst [TVar a].
Proof.
  intros (C & R1 & R2 & Hn & Ht & Nf) Ea Na. cbn [length Z.of_nat] in *. change (Z.of_nat 1) with 1 in *.
  assert (Nd : cm s dst = None) by (apply Hn; lia). destruct (ci_p s C) as [P1 P2].
  assert (Oa : ~ (base <= a < top)) by (intros R; rewrite Free in Ea by auto; discriminate).
  set (s' := Cst _ _ _).
  assert (Ed : cm s' dst = Some (Word (REF dst))).
  { cbn. rewrite store_other by lia. apply store_same. }
  assert (Ea' : cm s' a = Some (Word (REF dst))) by (cbn; apply store_same).
  assert (K : forall x, x <> a -> x <> dst -> cm s' x = cm s x).
  { intros x N1 N2. cbn. now rewrite !store_other by auto. }
  assert (Kd : forall b, In b (dom s) -> cm s' b = cm s b).
  { intros b I. apply K; [intros ->; contradiction|]. intros ->. apply (dom_out s dst C I). lia. }
  assert (C' : CI s').
  { split.
    - cbn. lia.
    - intros x Rx Nx. cbn [dom cvars s' map snd] in Nx. cbn [cp s'] in Rx.
      rewrite K; [|intros ->; apply Nx; now left|lia]. apply (ci_out s C); auto. intros I. apply Nx. now right.
    - intros w b [Q|I].
      + injection Q as <- <-. split; auto. split; auto. exists dst. split; auto. split; [cbn; lia|auto].
      + destruct (ci_var s C w b I) as (-> & E & d & E1 & Rd & E2). split; auto. split; auto. exists d.
        assert (In b (dom s)) by (apply in_map_iff; exists (REF b, b); auto).
        rewrite Kd by auto. split; auto. split; [exact Rd|]. rewrite K; auto; [lia|congruence].
    - cbn. constructor; auto. apply (ci_nd s C).
    - assert (Nx : forall b, In b (dom s) -> cm s' b <> Some (Word (REF dst))).
      { intros b I Q. rewrite Kd in Q by auto. destruct (dom_var s b C I) as (_ & d & E1 & _ & E2). congruence. }
      intros a1 a2 d [<-|I1] [<-|I2] E1 E2; auto.
      + cbn [snd] in *. rewrite Ea' in E1. injection E1 as <-. destruct (Nx a2 I2 E2).
      + cbn [snd] in *. rewrite Ea' in E2. injection E2 as <-. destruct (Nx a1 I1 E1).
      + rewrite Kd in E1, E2 by auto. exact (ci_inj s C a1 a2 d I1 I2 E1 E2).
    - intros x c Rx E. cbn [cp s'] in *. destruct (Z.eq_dec x dst) as [->|N].
      + rewrite Ed in E. injection E as <-. cbn [okc]. split; [lia|auto].
      + rewrite K in E by lia. apply (okc_mono (cm s) (cm s') (cp s) (cp s)); auto; [lia| | |].
        * apply (ci_cell s C x); auto.
        * intros y c' Ry E'. rewrite K; auto; [lia|congruence].
        * intros y Ry Ny c' E'. destruct (Z.eq_dec y dst) as [->|N']; [rewrite Ed in E'; injection E' as <-; eauto|].
          rewrite K in E' by (auto; lia). congruence. }
  split; auto.
  - cbn. lia.
  - intros x Rx Nx. apply K; [lia|]. cbn in Nx. lia.
  - intros b. cbn. intuition.
  - cbn. lia.
  - cbn [map ren]. rewrite (rho_some _ _ _ Ea').
    assert (Q : reg s' dst = Some (Word (REF dst))) by (unfold reg; cbn [cp s']; rewrite region_in by lia; auto).
    econstructor; [exact Q|now apply den_var|constructor].
  - cbn. lia.
Qed.

Lemma post_flt s dst a d : pre s dst [TFlt d] -> m0 a = Some (Dbl d) -> not_nan d ->
  Post s (Cst (store (store (cm s) (cp s) (Dbl d)) dst (Word (FLT (cp s)))) (cvars s) (cp s + 1)) dst [TFlt d].
Proof.
  intros (C & R1 & R2 & Hn & Ht & Nf) Ea Nn. cbn [length Z.of_nat sumw map words_of fold_right] in *. change (Z.of_nat 1) with 1 in *.
  unfold sumw in Ht. cbn in Ht.
  assert (Nd : cm s dst = None) by (apply Hn; lia). destruct (ci_p s C) as [P1 P2].
  set (s' := Cst _ _ _).
  assert (Ed : cm s' dst = Some (Word (FLT (cp s)))) by (cbn; apply store_same).
  assert (Eq : cm s' (cp s) = Some (Dbl d)) by (cbn; rewrite store_other by lia; apply store_same).
  assert (K : forall x, x <> dst -> x <> cp s -> cm s' x = cm s x).
  { intros x N1 N2. cbn. now rewrite !store_other by auto. }
  assert (C' : CI s').
  { apply (CI_ext s s' dst (FLT (cp s))); auto; cbn [cp s']; try lia.
    - intros x N1 N2. apply K; lia.
    - cbn [okc]. split; [lia|]. eauto.
    - intros x c Rx E. assert (x = cp s) by lia. subst x. rewrite Eq in E. injection E as <-. exact I. }
  split; auto.
  - cbn. lia.
  - intros x Rx Nx. apply K; [cbn in Nx; lia|lia].
  - intros b. cbn. tauto.
  - intros b I. pose proof (dom_out s b C I). apply K; lia.
  - cbn [cp s']. intros x Rx. assert (x = cp s) by lia. subst x. congruence.
  - cbn [map ren]. econstructor; [|apply den_flt with (d := d)|constructor].
    + unfold reg. cbn [cp s']. rewrite region_in by lia. exact Ed.
    + unfold reg. cbn [cp s']. rewrite region_in by lia. exact Eq.
  - cbn [cp s']. intros x Rx. assert (x = cp s) by lia. subst x. exists 0. split; [cbn; lia|].
    apply sr_flt. unfold reg. cbn [cp s']. rewrite region_in by lia. rewrite Z.add_0_r. exact Ed.
Qed.

(** two copies one after the other *)
Lemma post_cons s s1 s2 q t ts : pre s q (t :: ts) -> Post s s1 q [t] -> Post s1 s2 (q + 1) ts -> Post s s2 q (t :: ts).
Proof.
  intros (C & R1 & R2 & Hn & Ht & Nf) P1 P2. pose proof (sumw_len ts) as Sl. pose proof (words_pos t) as Wp.
  destruct P1 as [C1 E1 F1 D1 K1 Df1 De1 Re1]. destruct P2 as [C2 E2 F2 D2 K2 Df2 De2 Re2].
  change (length (t :: ts)) with (S (length ts)) in *. rewrite Nat2Z.inj_succ in *.
  change (sumw (t :: ts)) with (words_of t + sumw ts) in *.
  change (sumw [t]) with (words_of t + 0) in *. change (Z.of_nat (length [t])) with 1 in *.
  destruct (ci_p s C) as [Q1 Q2].
  assert (Sb : sub (reg s1) (reg s2)).
  { intros x c E. apply region_some in E as [R E]. unfold reg. rewrite region_in by lia.
    destruct (Z_lt_dec x (q + 1)); [rewrite F2; auto; lia|].
    destruct (Z_lt_dec x (q + 1 + Z.of_nat (length ts))); [|rewrite F2; auto; lia].
    rewrite F1 in E by lia. rewrite Hn in E by lia. discriminate. }
  assert (Hl : Z.of_nat (length (t :: ts)) = Z.succ (Z.of_nat (length ts))) by (cbn [length]; lia).
  assert (Hs0 : sumw (t :: ts) = words_of t + sumw ts) by reflexivity.
  split; rewrite ?Hl, ?Hs0; auto.
  - lia.
  - intros x Rx Nx. rewrite F2 by lia. apply F1; lia.
  - intros a. rewrite D2, D1. cbn [flat_map]. rewrite app_nil_r, in_app_iff. tauto.
  - intros a I. rewrite K2; auto. apply D1. auto.
  - intros x Rx. destruct (Z_lt_dec x (cp s1)); [|apply Df2; lia]. rewrite F2 by lia. apply Df1. lia.
  - cbn [map] in *. inversion De1 as [|? w ? ? Ew Dw _]; subst.
    econstructor; [apply Sb; exact Ew| |exact De2].
    rewrite (ren_ext (rho (cm s2)) (rho (cm s1)) t).
    + apply (proj1 (den_sub_both _ _ Sb)). exact Dw.
    + intros a I. unfold rho. rewrite K2; auto. apply D1. right. cbn. rewrite app_nil_r. auto.
  - intros x Rx. destruct (Z_lt_dec x (cp s1)).
    + destruct (Re1 x ltac:(lia)) as (i & Ri & Hs).
      exists i. split; [lia|]. exact (sreach_sub _ _ _ _ Sb Hs).
    + destruct (Re2 x ltac:(lia)) as (i & Ri & Hs). exists (i + 1). split; [lia|].
      replace (q + (i + 1)) with (q + 1 + i) by lia. exact Hs.
Qed.

Lemma full_left s s1 t ts : Full s s1 [t] -> Full s s1 (t :: ts).
Proof.
  intros [C F D K [a [I N]]]. cbn in I. rewrite app_nil_r in I. split; auto.
  - intros b Ib. specialize (D b Ib). cbn in *. rewrite app_nil_r in D. rewrite !in_app_iff in *. tauto.
  - exists a. split; auto. cbn. apply in_or_app. auto.
Qed.
Lemma full_right s s1 s2 q t ts : Post s s1 q [t] -> Full s1 s2 ts -> Full s s2 (t :: ts).
Proof.
  intros P1 [C F D K [a [I N]]]. destruct P1 as [C1 E1 F1 D1 K1 Df1 De1 Re1]. split; auto.
  - intros b Ib. specialize (D b Ib). cbn in *. rewrite !in_app_iff in *.
    destruct D as [D|D]; auto. apply D1 in D. cbn in D. rewrite app_nil_r in D. tauto.
  - intros b Ib. destruct (K b) as [Q1 Q2]; [apply D1; auto|]. split; auto. rewrite Q2. auto.
  - exists a. split; auto. cbn. apply in_or_app. auto.
Qed.

(** a list or a structure: [hd] is 0 or 1 (the functor) *)
Lemma post_cmp s s1 s2 dst w0 q' f ts : pre s dst [TCmp f ts] -> CI s1 -> cvars s1 = cvars s ->
  (forall x, x <> dst -> ~ (cp s <= x < cp s1) -> cm s1 x = cm s x) ->
  cm s1 dst = Some (Word w0) -> cp s <= q' -> q' + Z.of_nat (length ts) = cp s1 ->
  words_of (TCmp f ts) = q' - cp s + 1 + sumw ts ->
  (forall x, cp s <= x < q' -> exists g n, cm s1 x = Some (Func g n)) ->
  (forall m ts', length ts' = length ts -> (forall x, cp s <= x < q' -> m x = cm s1 x) -> den_args m q' ts' -> den m w0 (TCmp f ts')) ->
  (forall m x, m dst = Some (Word w0) -> cp s <= x < q' -> sreach m dst x) ->
  (forall m i y, m dst = Some (Word w0) -> (forall x, cp s <= x < q' -> m x = cm s1 x) -> 0 <= i < Z.of_nat (length ts) ->
     sreach m (q' + i) y -> sreach m dst y) ->
  Post s1 s2 q' ts -> Post s s2 dst [TCmp f ts].
Proof.
  intros (C & R1 & R2 & Hn & Ht & Nf) C1 Hv K Ed Hq Hq2 Hw Hf Hd Hrf Hr P.
  destruct P as [C2 E2 F2 D2 K2 Df2 De2 Re2]. destruct (ci_p s C) as [Q1 Q2]. destruct (ci_p s1 C1) as [Q3 Q4].
  pose proof (sumw_len ts) as Sl.
  change (Z.of_nat (length [TCmp f ts])) with 1 in *.
  change (sumw [TCmp f ts]) with (words_of (TCmp f ts) + 0) in *.
  assert (Ed2 : cm s2 dst = Some (Word w0)) by (rewrite F2 by lia; auto).
  assert (Kd : forall a, In a (dom s) -> cm s1 a = cm s a).
  { intros a I. pose proof (dom_out s a C I) as Oa. apply K; lia. }
  assert (Dd : dom s1 = dom s) by (unfold dom; now rewrite Hv).
  assert (F3 : forall x, cp s <= x < q' -> reg s2 x = cm s1 x).
  { intros x Rx. unfold reg. rewrite region_in by lia. apply F2; lia. }
  assert (Hs0 : sumw [TCmp f ts] = words_of (TCmp f ts) + 0) by reflexivity.
  change (Z.of_nat (length [TCmp f ts])) with 1 in *.
  split; auto; rewrite ?Hs0; change (Z.of_nat (length [TCmp f ts])) with 1.
  - lia.
  - intros x Rx Nx. rewrite F2 by lia. apply K; lia.
  - intros a. rewrite D2, Dd. cbn. rewrite app_nil_r. tauto.
  - intros a I. rewrite K2 by congruence. auto.
  - intros x Rx. destruct (Z_lt_dec x (cp s1)).
    + destruct (Z_lt_dec x q').
      * rewrite F2 by lia. destruct (Hf x ltac:(lia)) as (g & n & ->). discriminate.
      * (* the argument cells *)
        assert (G : forall ts a y, den_args (reg s2) a ts -> a <= y < a + Z.of_nat (length ts) -> cm s2 y <> None).
        { clear. induction ts as [|t ts IH]; intros a y D R; cbn [length] in R; [lia|].
          inversion D as [|? w ? ? Ew _ Ds]; subst. destruct (Z.eq_dec y a) as [->|N].
          - apply region_some in Ew as [_ ->]. discriminate.
          - apply (IH (a + 1)); auto. lia. }
        apply (G _ q' x De2). rewrite map_length. lia.
    + apply Df2. lia.
  - cbn [map ren]. econstructor; [|apply Hd; [now rewrite map_length|exact F3|exact De2]|constructor].
    unfold reg. rewrite region_in by lia. exact Ed2.
  - intros x Rx. exists 0. split; [lia|]. rewrite Z.add_0_r.
    assert (Es : reg s2 dst = Some (Word w0)) by (unfold reg; rewrite region_in by lia; exact Ed2).
    destruct (Z_lt_dec x (cp s1)).
    + destruct (Z_lt_dec x q').
      * apply Hrf; auto. lia.
      * apply (Hr _ (x - q') x Es F3); [lia|]. replace (q' + (x - q')) with x by lia. constructor.
    + destruct (Re2 x ltac:(lia)) as (i & Ri & Hs). exact (Hr _ i x Es F3 Ri Hs).
Qed.

Lemma full_cmp s s1 s2 f ts : cvars s1 = cvars s -> (forall a, In a (dom s) -> cm s1 a = cm s a) ->
  Full s1 s2 ts -> Full s s2 [TCmp f ts].
Proof.
  intros Hv Hk [C F D K [a [I N]]]. assert (Dd : dom s1 = dom s) by (unfold dom; now rewrite Hv).
  rewrite Dd in *. split; auto.
  - cbn. now rewrite app_nil_r.
  - intros b Ib. destruct (K b Ib) as [Q1 Q2]. split; auto. rewrite Q2. auto.
  - exists a. split; auto. cbn. now rewrite app_nil_r.
Qed.

(** a variable already met *)
Lemma copy_old s dst a w d : pre s dst [TVar a] -> In a (dom s) -> cm s a = Some (Word (REF d)) ->
  derefs (cm s) w (REF d) -> exists F r, res_ok s dst [TVar a] r /\
     forall fuel, (F <= fuel)%nat -> Copy_Term_Rec lim base fuel s dst w = Ret r.
Proof.
  intros Pr Ia Ed Dr. pose proof Pr as (C & R1 & R2 & Hn & Ht & Nf). change (Z.of_nat (length [TVar a])) with 1 in *.
  destruct (ci_p s C) as [Q1 Q2]. destruct (dom_var s a C Ia) as (_ & d' & Ed' & Rd & Sd).
  assert (d' = d) by congruence. subst d'. destruct (derefs_fun _ _ _ Dr) as [F HF].
  exists (S F), (COk (cstore s dst (Word (REF d)))). split.
  - assert (Nd : d <> dst) by (intros ->; rewrite Hn in Sd by lia; discriminate).
    assert (Na : a <> dst) by (intros ->; rewrite Hn in Ed by lia; discriminate).
    apply post_plain; auto.
    + cbn [okc]. split; [lia|]. now rewrite store_other.
    + cbn [ren cstore cm]. rewrite (rho_some _ a d) by now rewrite store_other. apply den_var.
      unfold reg. cbn [cp cstore cm]. rewrite region_in by lia. now rewrite store_other.
    + intros b [<-|[]]. auto.
  - intros [|f] Hf; [lia|]. cbn [Copy_Term_Rec]. rewrite HF by lia. cbn [bind].
    destruct (Z.ltb_spec d (cp s)), (Z.leb_spec base d); cbn [andb]; auto; lia.
Qed.

Lemma Copy_both :
  (forall w t, den m0 w t -> wf_word L m0 w -> forall s dst, pre s dst [t] -> exists F r, res_ok s dst [t] r /\
     forall fuel, (F <= fuel)%nat -> Copy_Term_Rec lim base fuel s dst w = Ret r) /\
  (forall a ts, den_args m0 a ts -> ts <> [] -> forall s q, pre s q ts -> exists F r, res_ok s q ts r /\
     forall fuel, (F <= fuel)%nat -> copy_args (Copy_Term_Rec lim base fuel) (length ts) s q a = Ret r).
Proof.
  apply (den_both m0
    (fun w t _ => wf_word L m0 w -> forall s dst, pre s dst [t] -> exists F r, res_ok s dst [t] r /\
     forall fuel, (F <= fuel)%nat -> Copy_Term_Rec lim base fuel s dst w = Ret r)
    (fun a ts _ => ts <> [] -> forall s q, pre s q ts -> exists F r, res_ok s q ts r /\
     forall fuel, (F <= fuel)%nat -> copy_args (Copy_Term_Rec lim base fuel) (length ts) s q a = Ret r)).
  - (* variable *)
    intros a E Ww s dst Pr. pose proof Pr as (C & R1 & R2 & Hn & Ht & Nf). change (Z.of_nat (length [TVar a])) with 1 in *.
    destruct (ci_p s C) as [Q1 Q2]. destruct (copy_derefs s (REF a) (REF a) C (drf_self _ _ E)) as (I1 & I2 & _).
    destruct (in_dec Z.eq_dec a (dom s)) as [Ia|Na].
    + destruct (dom_var s a C Ia) as (_ & d & Ed & _). exact (copy_old s dst a (REF a) d Pr Ia Ed (I2 a d eq_refl Ia Ed)).
    + destruct (I1 a eq_refl Na) as [Dr Ea]. destruct (derefs_fun _ _ _ Dr) as [F HF].
      assert (Oa : (a <? cp s) && (base <=? a) = false).
      { destruct (Z.ltb_spec a (cp s)), (Z.leb_spec base a); cbn [andb]; auto. rewrite Free in E by lia. discriminate. }
      destruct (Nat.leb_spec lim (length (cvars s))) as [Hl|Hl].
      * exists (S F), (CTooMany s). split.
        -- split; auto.
           ++ unfold dom. now rewrite map_length.
           ++ apply incl_appl, incl_refl.
           ++ exists a. split; [cbn; auto|auto].
        -- intros [|f] Hf; [lia|]. cbn [Copy_Term_Rec]. rewrite HF by lia. cbn [bind].
           rewrite Oa. apply Nat.leb_le in Hl. now rewrite Hl.
      * eexists (S F), (COk _). split; [exact (post_var s dst a Pr E Na)|].
        intros [|f] Hf; [lia|]. cbn [Copy_Term_Rec]. rewrite HF by lia. cbn [bind].
        rewrite Oa. apply Nat.leb_gt in Hl. now rewrite Hl.
  - (* reference *)
    intros b w t E N D IH Wb s dst Pr. destruct (IH (wf_cell _ _ W _ _ E) s dst Pr) as (F & r & Hr & H).
    pose proof Pr as (C & _). assert (Ec : cm s b = Some (Word w)) by (apply orig_cell; auto; congruence).
    destruct (den_derefs _ _ _ D) as (w' & Dw & _).
    assert (exists d, derefs (cm s) w d) as [d Dd].
    { destruct (copy_derefs s w w' C Dw) as (I1 & I2 & I3). destruct w' as [a| | | | | |]; eauto; try (eexists; apply I3; discriminate).
      destruct (in_dec Z.eq_dec a (dom s)) as [Ia|Na].
      - destruct (dom_var s a C Ia) as (_ & d & Ed & _). eauto.
      - destruct (I1 a eq_refl Na). eauto. }
    destruct (derefs_fun _ _ _ Dd) as [F1 H1].
    destruct (derefs_fun _ _ _ (drf_step _ b w d Ec N Dd)) as [F2 H2].
    exists (S (F + F1 + F2)), r. split; auto. intros [|f] Lf; [lia|]. specialize (H (S f) ltac:(lia)).
    cbn [Copy_Term_Rec] in *. rewrite H1 in H by lia. rewrite H2 by lia. exact H.
  - intros a Ww s dst (_ & _ & _ & _ & _ & Nf). discriminate.
  - (* float *)
    intros b d E (d' & E' & Nn & _) s dst Pr. rewrite E in E'. injection E' as <-. pose proof Pr as (C & _).
    eexists 2%nat, (COk _). split; [exact (post_flt s dst b d Pr E Nn)|].
    intros [|[|f]] Lf; try lia. cbn [Copy_Term_Rec deref bind]. unfold rd_dbl.
    rewrite (orig_cell s b (Dbl d) C E) by discriminate. reflexivity.
  - intros n Ww s dst Pr. exists 2%nat, (COk (cstore s dst (Word (INT n)))). split.
    + apply post_plain; auto; [constructor|intros a []].
    + intros [|[|f]] Lf; try lia. reflexivity.
  - intros n Ww s dst Pr. exists 2%nat, (COk (cstore s dst (Word (ATM n)))). split.
    + apply post_plain; auto; [constructor|intros a []].
    + intros [|[|f]] Lf; try lia. reflexivity.
  - (* list *)
    intros b t1 t2 D IH Ww s dst Pr. pose proof Pr as (C & R1 & R2 & Hn & Ht & Nf).
    change (Z.of_nat (length [TCmp ATOM_DOT [t1; t2]])) with 1 in *. destruct (ci_p s C) as [Q1 Q2].
    pose proof (words_pos t1). pose proof (words_pos t2).
    assert (Hw : words_of (TCmp ATOM_DOT [t1; t2]) = 1 + sumw [t1; t2]) by reflexivity.
    unfold sumw in Ht. cbn [map fold_right] in Ht. rewrite Hw in Ht. unfold sumw in Ht. cbn [map fold_right] in Ht.
    set (s1 := Cst (store (cm s) dst (Word (LST (cp s)))) (cvars s) (cp s + 2)).
    assert (K : forall x, x <> dst -> cm s1 x = cm s x) by (intros x N; cbn; now rewrite store_other).
    assert (Nn : forall x, cp s <= x < cp s + 2 -> cm s1 x = None).
    { intros x Rx. rewrite K by lia. apply above_none; auto. lia. }
    assert (Ed : cm s1 dst = Some (Word (LST (cp s)))) by (cbn; apply store_same).
    assert (C1 : CI s1).
    { apply (CI_ext s s1 dst (LST (cp s))); auto; cbn [cp s1]; try lia; [apply Hn; lia| |].
      - cbn [okc]. split; [lia|]. split; [lia|]. intros i Hi c Ec. rewrite Nn in Ec by lia. discriminate.
      - intros x c Rx Ex. rewrite Nn in Ex by lia. discriminate. }
    assert (Pr1 : pre s1 (cp s) [t1; t2]).
    { split; auto. cbn [length cp s1]. change (Z.of_nat 2) with 2. split; [lia|]. split; [lia|]. split; [auto|].
      split; [unfold sumw; cbn [map fold_right]; lia|]. cbn in Nf |- *. now rewrite andb_true_r in Nf. }
    destruct (IH ltac:(discriminate) s1 (cp s) Pr1) as (F & r & Hr & HF). exists (S (S F)), r. split.
    + destruct r as [s2|s2|]; cbn [res_ok] in *; [| |destruct Hr].
      * apply (post_cmp s s1 s2 dst (LST (cp s)) (cp s) ATOM_DOT [t1; t2]); auto; try lia.
        -- intros m [|u1 [|u2 [|]]] Hl _ Ds; try discriminate. now constructor.
        -- intros m i y Em _ Hi Hs. eapply sr_lst; eauto.
      * apply (full_cmp s s1 s2 ATOM_DOT [t1; t2]); auto. intros a Ia. pose proof (dom_out s a C Ia). apply K. lia.
    + intros [|[|f]] Lf; try lia. specialize (HF (S f) ltac:(lia)). exact HF.
  - (* structure *)
    intros b f ts E D IH (g' & k & E' & Nk & Ndot & _) s dst Pr. rewrite E in E'. injection E' as <- <-.
    pose proof Pr as (C & R1 & R2 & Hn & Ht & Nf).
    change (Z.of_nat (length [TCmp f ts])) with 1 in *. destruct (ci_p s C) as [Q1 Q2].
    pose proof (sumw_len ts) as Sl.
    assert (Hw : words_of (TCmp f ts) = 2 + sumw ts).
    { unfold sumw. cbn [words_of]. destruct (Z.eqb_spec f ATOM_DOT), (Nat.eqb_spec (length ts) 2); cbn [andb]; auto. tauto. }
    assert (Ht' : cp s + 1 + sumw ts <= top).
    { change (sumw [TCmp f ts]) with (words_of (TCmp f ts) + 0) in Ht. lia. }
    set (n := length ts) in *.
    set (s1 := Cst (store (store (cm s) dst (Word (STC (cp s)))) (cp s) (Func f n)) (cvars s) (cp s + 1 + Z.of_nat n)).
    assert (K : forall x, x <> dst -> x <> cp s -> cm s1 x = cm s x).
    { intros x N1 N2. cbn. now rewrite !store_other by auto. }
    assert (Ef : cm s1 (cp s) = Some (Func f n)) by (cbn; apply store_same).
    assert (Nn : forall x, cp s + 1 <= x < cp s + 1 + Z.of_nat n -> cm s1 x = None).
    { intros x Rx. rewrite K by lia. apply above_none; auto. lia. }
    assert (Ed : cm s1 dst = Some (Word (STC (cp s)))).
    { cbn. rewrite store_other by lia. apply store_same. }
    assert (C1 : CI s1).
    { apply (CI_ext s s1 dst (STC (cp s))); auto; cbn [cp s1]; try lia; [apply Hn; lia| | |].
      - intros x N1 N2. apply K; lia.
      - cbn [okc]. exists f, n. split; [lia|]. split; [auto|]. split; [auto|]. split; [auto|]. split; [lia|].
        intros i Hi c Ec. rewrite Nn in Ec by lia. discriminate.
      - intros x c Rx Ex. destruct (Z.eq_dec x (cp s)) as [->|N]; [rewrite Ef in Ex; injection Ex as <-; exact I|].
        rewrite Nn in Ex by lia. discriminate. }
    assert (Pr1 : pre s1 (cp s + 1) ts).
    { split; auto. cbn [cp s1]. fold n. split; [lia|]. split; [lia|]. split; [auto|].
      split; [lia|]. cbn in Nf. now rewrite andb_true_r in Nf. }
    destruct (IH ltac:(unfold n in Nk; destruct ts; [cbn in Nk; lia|discriminate]) s1 (cp s + 1) Pr1) as (F & r & Hr & HF).
    exists (S (S F)), r. split.
    + destruct r as [s2|s2|]; cbn [res_ok] in *; [| |destruct Hr].
      * apply (post_cmp s s1 s2 dst (STC (cp s)) (cp s + 1) f ts); auto; try lia.
        -- intros x N1 N2. cbn [cp s1] in N2. apply K; lia.
        -- intros x Rx. assert (x = cp s) by lia. subst x. eauto.
        -- intros m ts' Hl Em Ds. constructor; auto. rewrite Em by lia. rewrite Hl. exact Ef.
        -- intros m x Em Rx. assert (x = cp s) by lia. subst x. now apply sr_fun.
        -- intros m i y Em Ec Hi Hs. apply (sr_stc m dst (cp s) f n i y); auto. rewrite Ec by lia. exact Ef.
      * apply (full_cmp s s1 s2 f ts); auto. intros a Ia. pose proof (dom_out s a C Ia). apply K; lia.
    + intros [|[|fu]] Lf; try lia. specialize (HF (S fu) ltac:(lia)).
      change (Copy_Term_Rec lim base (S (S fu)) s dst (STC b)) with
        (do fn <- rd_func (cm s) b;
         copy_args (Copy_Term_Rec lim base (S fu)) (snd fn)
          (Cst (store (store (cm s) dst (Word (STC (cp s)))) (cp s) (Func (fst fn) (snd fn))) (cvars s)
             (cp s + 1 + Z.of_nat (snd fn))) (cp s + 1) (b + 1)).
      unfold rd_func. rewrite (orig_cell s b (Func f n) C E) by discriminate. exact HF.
  - congruence.
  - (* arguments *)
    intros a w t ts E D IHw Ds IH _ s q Pr. pose proof Pr as (C & R1 & R2 & Hn & Ht & Nf).
    assert (Nf' : nofd t = true /\ forallb nofd ts = true) by (now apply andb_true_iff).
    change (length (t :: ts)) with (S (length ts)) in *. rewrite Nat2Z.inj_succ in *.
    change (sumw (t :: ts)) with (words_of t + sumw ts) in *. pose proof (sumw_len ts) as Sl. pose proof (words_pos t) as Wp.
    assert (Pr1 : pre s q [t]).
    { split; auto. change (Z.of_nat (length [t])) with 1. change (sumw [t]) with (words_of t + 0).
      split; [lia|]. split; [lia|]. split; [intros x Rx; apply Hn; lia|]. split; [lia|]. cbn. now rewrite (proj1 Nf'). }
    (* the source cell may be a variable that has been bound to its copy *)
    assert (Src : exists w1, cm s a = Some (Word w1) /\ exists F r, res_ok s q [t] r /\
       forall fuel, (F <= fuel)%nat -> Copy_Term_Rec lim base fuel s q w1 = Ret r).
    { destruct (in_dec Z.eq_dec a (dom s)) as [Ia|Na].
      - destruct (dom_var s a C Ia) as (Ea & d & Ed & Rd & Sd). assert (w = REF a) by congruence. subst w.
        exists (REF d). split; auto. inversion D; subst; [|congruence].
        apply (copy_old s q a (REF d) d); auto. now apply drf_self.
      - exists w. split; [|exact (IHw (wf_cell _ _ W _ _ E) s q Pr1)]. rewrite <- E. apply (ci_out s C); auto.
        intros R. destruct (ci_p s C). rewrite Free in E by lia. discriminate. }
    destruct Src as (w1 & E1 & F1 & r1 & Hr1 & H1).
    destruct ts as [|t' ts].
    { exists F1, r1. split; auto. intros fuel Lf. cbn [length copy_args]. unfold rd_word. rewrite E1. cbn [bind]. auto. }
    destruct r1 as [s1|s1|]; cbn [res_ok] in Hr1; [| |destruct Hr1].
    + assert (Pr2 : pre s1 (q + 1) (t' :: ts)).
      { destruct Hr1 as [C1 P1 Fr1 _ _ _ _ _]. change (sumw [t]) with (words_of t + 0) in P1.
        change (Z.of_nat (length [t])) with 1 in *.
        split; auto. split; [lia|]. split; [lia|].
        split; [intros x Rx; rewrite Fr1 by lia; apply Hn; lia|]. split; [lia|apply Nf']. }
      destruct (IH ltac:(discriminate) s1 (q + 1) Pr2) as (F2 & r2 & Hr2 & H2).
      exists (F1 + F2)%nat, r2. split.
      * destruct r2 as [s2|s2|]; cbn [res_ok] in *; [| |destruct Hr2].
        -- exact (post_cons s s1 s2 q t _ Pr Hr1 Hr2).
        -- exact (full_right s s1 s2 q t _ Hr1 Hr2).
      * intros fuel Lf. specialize (H2 fuel ltac:(lia)). cbn [length] in *. cbn [copy_args] in *. unfold rd_word at 1.
        rewrite E1. cbn [bind]. rewrite H1 by lia. cbn [bind]. exact H2.
    + exists F1, (CTooMany s1). split; [exact (full_left s s1 t _ Hr1)|].
      intros fuel Lf. cbn [length copy_args]. unfold rd_word at 1. rewrite E1. cbn [bind]. rewrite H1 by lia. reflexivity.
Qed.
End Copy.
