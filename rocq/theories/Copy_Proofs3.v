(** Results about Pl_Copy_Term, and the copy of a contiguous term. *)
Require Import ZArith List Bool Lia PeanoNat.
Require Import Verif.Term_Model Verif.Term_Proofs Verif.Heap_Model Verif.Heap_Proofs Verif.Unify_Model Verif.Unify_Spec Verif.Unify_Proofs.
Require Import Verif.Binding_Model Verif.Copy_Model Verif.Copy_Spec Verif.Copy_Proofs2.
Import ListNotations.
Open Scope Z_scope.

(** ** the table never holds more than [lim] variables *)
Lemma copy_args_lim lim base fuel
  (IH : forall s dst w s', Copy_Term_Rec lim base fuel s dst w = Ret (COk s') ->
     (length (cvars s) <= lim)%nat -> (length (cvars s') <= lim)%nat) :
  forall n s q a s', copy_args (Copy_Term_Rec lim base fuel) n s q a = Ret (COk s') ->
     (length (cvars s) <= lim)%nat -> (length (cvars s') <= lim)%nat.
Proof.
  induction n as [|n IHn]; intros s q a s' Q Hl; cbn [copy_args] in Q; [discriminate|].
  destruct (rd_word (cm s) a) as [w| |]; try discriminate. cbn [bind] in Q.
  destruct n as [|n]; [exact (IH _ _ _ _ Q Hl)|].
  destruct (Copy_Term_Rec lim base fuel s q w) as [[s1|s1|]| |] eqn:Q1; try discriminate. cbn [bind] in Q.
  exact (IHn _ _ _ _ Q (IH _ _ _ _ Q1 Hl)).
Qed.
Lemma copy_lim lim base : forall fuel s dst w s', Copy_Term_Rec lim base fuel s dst w = Ret (COk s') ->
     (length (cvars s) <= lim)%nat -> (length (cvars s') <= lim)%nat.
Proof.
  induction fuel as [|fuel IH]; intros s dst w s' Q Hl; [discriminate|]. cbn [Copy_Term_Rec] in Q.
  destruct (deref fuel (cm s) w) as [u| |]; try discriminate. cbn [bind] in Q.
  destruct u as [a|a|a|i|a|a|i]; try discriminate; try (injection Q as <-; exact Hl).
  - destruct ((a <? cp s) && (base <=? a)); [injection Q as <-; exact Hl|].
    destruct (Nat.leb_spec lim (length (cvars s))); [discriminate|]. injection Q as <-. cbn. lia.
  - exact (copy_args_lim lim base fuel IH _ _ _ _ _ Q Hl).
  - destruct (rd_func (cm s) a) as [fn| |]; try discriminate. cbn [bind] in Q.
    exact (copy_args_lim lim base fuel IH _ _ _ _ _ Q Hl).
  - destruct (rd_dbl (cm s) a) as [d| |]; try discriminate. cbn [bind] in Q. injection Q as <-. exact Hl.
Qed.

(** ** restoring *)
Lemma restore_other vs : forall m x, ~ In x (map snd vs) -> restore_vars vs m x = m x.
Proof.
  induction vs as [|[w a] vs IH]; intros m x N; cbn; auto. unfold restore_vars in IH. rewrite IH.
  - cbn. rewrite store_other; auto. intros ->. apply N. now left.
  - intros I. apply N. now right.
Qed.
Lemma restore_in vs : forall m w a, NoDup (map snd vs) -> In (w, a) vs -> restore_vars vs m a = Some (Word w).
Proof.
  induction vs as [|[w a] vs IH]; intros m v b Nd I; [destruct I|]. cbn [map snd] in Nd.
  inversion Nd; subst. destruct I as [Q|I].
  - injection Q as -> ->. cbn. change (restore_vars vs (store m b (Word v)) b = Some (Word v)).
    rewrite restore_other by auto. apply store_same.
  - exact (IH _ v b ltac:(auto) I).
Qed.

Lemma incl_many lim t l : NoDup l -> incl l (occs false t) -> (lim < length l)%nat -> more_vars lim t.
Proof. intros N I Hl. exists l. auto. Qed.

Theorem Copy_correct L m0 lim base w t : wf L m0 ->
  (forall x, base <= x < base + words_of t -> m0 x = None) ->
  den m0 w t -> wf_word L m0 w -> nofd t = true ->
  exists F r, (forall fuel, (F <= fuel)%nat -> Copy_Term lim fuel m0 base w = Ret r) /\
  match r with
  | CpOk m' => ~ more_vars lim t /\
      (forall x, ~ (base <= x < base + words_of t) -> m' x = m0 x) /\
      (forall x, base <= x < base + words_of t -> exists c, m' x = Some c /\ okc m' base (base + words_of t) c) /\
      (forall x, base <= x < base + words_of t -> sreach (region base (base + words_of t) m') base x) /\
      exists w' ro, m' base = Some (Word w') /\ den (region base (base + words_of t) m') w' (ren ro t) /\
        (forall a, In a (occs false t) -> base <= ro a < base + words_of t) /\
        (forall a b, In a (occs false t) -> In b (occs false t) -> ro a = ro b -> a = b)
  | CpTooMany m' => more_vars lim t /\ ((0 < lim)%nat -> exists a d, In a (occs false t) /\
      m0 a = Some (Word (REF a)) /\ m' a = Some (Word (REF d)) /\ base <= d < base + words_of t)
  | CpFd => False
  end.
Proof.
  intros W Free D Ww Nf. pose proof (words_pos t) as Wp. set (top := base + words_of t) in *.
  set (s0 := Cst m0 [] (base + 1)).
  assert (Pr : pre m0 base top s0 base [t]).
  { split; [|split; [lia|split; [cbn; lia|split; [|split]]]].
    - split; cbn [cp s0 cvars cm dom map]; try (now intros ? ? []); try (now intros ? ? ? []); auto.
      + unfold top. lia.
      + constructor.
      + intros x c R E. rewrite Free in E by (unfold top; lia). discriminate.
    - intros x R. change (Z.of_nat (length [t])) with 1 in R. cbn. apply Free. unfold top. lia.
    - change (sumw [t]) with (words_of t + 0). cbn. unfold top. lia.
    - cbn. now rewrite Nf. }
  destruct (proj1 (Copy_both L m0 lim base top W Free) w t D Ww s0 base Pr) as (F & r & Hr & H).
  destruct r as [s|s|]; cbn [res_ok] in Hr; [| |destruct Hr].
  - destruct Hr as [C P Fr Do Ke Df De Re]. change (sumw [t]) with (words_of t + 0) in P.
    change (Z.of_nat (length [t])) with 1 in *. cbn [cp s0] in *.
    assert (Hcp : cp s = top) by (unfold top; lia). clear P.
    assert (Lm : (length (cvars s) <= lim)%nat).
    { apply (copy_lim lim base F s0 base w s); [apply H; lia|cbn; lia]. }
    set (m' := restore_vars (cvars s) (cm s)).
    assert (In' : forall x, base <= x < top -> m' x = cm s x).
    { intros x R. apply restore_other. intros I. exact (dom_out m0 base top Free s x C I R). }
    assert (Out' : forall x, ~ (base <= x < top) -> m' x = m0 x).
    { intros x R. destruct (in_dec Z.eq_dec x (dom s)) as [I|N].
      - destruct (in_dom s x I) as [v Iv]. destruct (ci_var _ _ _ _ C v x Iv) as (-> & E & _). rewrite E.
        apply restore_in; auto. apply (ci_nd _ _ _ _ C).
      - unfold m'. rewrite restore_other by auto. apply (ci_out _ _ _ _ C); auto. rewrite Hcp. auto. }
    assert (Rg : forall x, region base top m' x = reg base s x).
    { intros x. unfold reg. rewrite Hcp. unfold region. destruct (Z.leb_spec base x), (Z.ltb_spec x top); cbn; auto. }
    assert (Dom : forall a, In a (occs false t) <-> In a (dom s)).
    { intros a. rewrite Do. cbn. rewrite app_nil_r. tauto. }
    exists F, (CpOk m'). split.
    { intros fuel Lf. unfold Copy_Term. fold s0. rewrite H by auto. reflexivity. }
    split; [|split; [exact Out'|split; [|split]]].
    + intros (l & Nd & Il & Hl). assert (length l <= length (dom s))%nat; [|unfold dom in *; rewrite map_length in *; lia].
      apply NoDup_incl_length; auto. intros a Ia. apply Dom, Il, Ia.
    + intros x R. rewrite In' by auto. cbn [map] in De. inversion De as [|? w1 ? ? E1 D1 _]; subst.
      apply region_some in E1 as [_ E1].
      assert (exists c, cm s x = Some c) as [c Ec].
      { destruct (Z.eq_dec x base) as [->|N]; [eauto|]. specialize (Df x ltac:(lia)). destruct (cm s x); [eauto|congruence]. }
      exists c. split; auto. apply (okc_mono base (cm s) m' top top); [lia| | |].
      * rewrite <- Hcp. apply (ci_cell _ _ _ _ C x); auto. lia.
      * intros y c' Ry Ey. now rewrite In'.
      * intros y Ry Ey c' Ey'. rewrite In' in Ey' by auto. congruence.
    + intros x R. assert (Sb : sub (reg base s) (region base top m')) by (intros y c; now rewrite Rg).
      destruct (Z.eq_dec x base) as [->|N]; [constructor|].
      destruct (Re x ltac:(lia)) as (i & Ri & Hs). assert (i = 0) by lia. subst i. rewrite Z.add_0_r in Hs.
      exact (sreach_sub _ _ _ _ Sb Hs).
    + cbn [map] in De. inversion De as [|? w1 ? ? E1 D1 _]; subst. exists w1, (rho (cm s)).
      apply region_some in E1 as [R1 E1]. split; [rewrite In'; [auto|lia]|]. split.
      { assert (Sb : sub (reg base s) (region base top m')) by (intros y c; now rewrite Rg).
        apply (proj1 (den_sub_both _ _ Sb)). exact D1. }
      assert (Im : forall a, In a (dom s) -> cm s a = Some (Word (REF (rho (cm s) a))) /\ base <= rho (cm s) a < top).
      { intros a I. destruct (dom_var m0 base top s a C I) as (_ & d & Ed & Rd & _). rewrite (rho_some _ a d Ed).
        split; auto. lia. }
      split.
      * intros a I. apply Im, Dom, I.
      * intros a b Ia Ib Q. apply Dom in Ia, Ib. destruct (Im a Ia) as [Ea _]. destruct (Im b Ib) as [Eb _].
        rewrite <- Q in Eb. exact (ci_inj _ _ _ _ C a b _ Ia Ib Ea Eb).
  - exists F, (CpTooMany (cm s)). split.
    { intros fuel Lf. unfold Copy_Term. fold s0. rewrite H by auto. reflexivity. }
    destruct Hr as [C Fl Di Ke (a & Ia & Na)]. cbn in Di, Ia. rewrite app_nil_r in Di, Ia. split.
    + exists (a :: dom s). split; [constructor; auto; apply (ci_nd _ _ _ _ C)|]. split; [|cbn; lia].
      intros b [<-|Ib]; auto.
    + intros Hl. destruct (dom s) as [|b l] eqn:Ed; [cbn in Fl; lia|].
      assert (Ib : In b (dom s)) by (rewrite Ed; now left).
      destruct (dom_var m0 base top s b C Ib) as (E & d & E1 & Rd & _). exists b, d.
      split; [apply Di; now left|]. split; auto. split; auto. destruct (ci_p _ _ _ _ C). lia.
Qed.

(** ** the memory after the copy is well-formed when the copy is in the heap *)
Lemma sub_wf_word L m m' w : sub m m' -> wf_word L m w -> wf_word L m' w.
Proof.
  unfold sub. intros Sb. assert (Wa : forall a n, words_at m a n -> words_at m' a n).
  { intros a n Q i Hi. destruct (Q i Hi) as [v E]. eauto. }
  destruct w as [b|b|b|i|b|b|n]; cbn; auto.
  - intros [v E]. eauto.
  - intros [R Q]. auto.
  - intros (f & n & E & Hn & Nd & R & Q). exists f, n. auto 10.
  - intros (d & E & Nn & R). eauto 10.
  - intros [E R]. auto.
Qed.
Lemma sub_derefs m m' w d : sub m m' -> derefs m w d -> derefs m' w d.
Proof. unfold sub. intros Sb. induction 1; [apply drf_self; auto|eapply drf_step; eauto|now apply drf_other]. Qed.

Lemma copy_wf L m0 m' base top : wf L m0 -> 0 <= base -> top <= L ->
  (forall x, base <= x < top -> m0 x = None) ->
  (forall x, ~ (base <= x < top) -> m' x = m0 x) ->
  (forall x, base <= x < top -> exists c, m' x = Some c /\ okc m' base top c) -> wf L m'.
Proof.
  intros W Hb Ht Free Out Okc.
  assert (Sb : sub m0 m').
  { intros x c E. rewrite Out; auto. intros R. rewrite Free in E by auto. discriminate. }
  assert (Cs : forall x c, m' x = Some c -> m0 x = Some c \/ base <= x < top /\ okc m' base top c).
  { intros x c E. destruct (Z_le_dec base x) as [R1|R1]; [destruct (Z_lt_dec x top) as [R2|R2]|].
    - destruct (Okc x (conj R1 R2)) as (c' & E' & Oc). assert (c' = c) by congruence. subst c'. auto.
    - left. rewrite <- E. symmetry. apply Out. lia.
    - left. rewrite <- E. symmetry. apply Out. lia. }
  assert (Wd : forall x, base <= x < top -> wordish m' x -> exists w, m' x = Some (Word w)).
  { intros x R Q. destruct (Okc x R) as (c & E & _). destruct (Q c E) as [w ->]. eauto. }
  assert (Wo : forall w, okc m' base top (Word w) -> wf_word L m' w).
  { intros [b|b|b|i|b|b|n]; cbn; auto.
    - intros [_ E]. eauto.
    - intros (R1 & R2 & Q). split; [lia|]. intros i Hi. apply Wd; [lia|]. apply Q. lia.
    - intros (f & n & R1 & E & Hn & Nd & R2 & Q). exists f, n. split; auto. split; auto. split; auto. split; [lia|].
      intros i Hi. apply Wd; [lia|]. apply Q. lia.
    - intros (R & d & E & Nn). exists d. split; auto. split; auto. lia.
    - tauto. }
  split.
  - intros a c E. destruct (Cs a c E) as [E0|[R _]]; [exact (wf_pos _ _ W a c E0)|lia].
  - intros a w E. destruct (Cs a _ E) as [E0|[R O]]; [|auto]. exact (sub_wf_word L m0 m' w Sb (wf_cell _ _ W a w E0)).
  - intros a b E. destruct (Cs a _ E) as [E0|[R O]]; [exact (wf_ref _ _ W a b E0)|]. cbn in O. lia.
  - intros a w E. destruct (Cs a _ E) as [E0|[R O]].
    + destruct (wf_drf _ _ W a w E0) as [d Dd]. exists d. exact (sub_derefs _ _ _ _ Sb Dd).
    + destruct w as [b|b|b|i|b|b|n]; try (eexists; apply drf_other; discriminate).
      destruct O as [_ E']. exists (REF b). now apply drf_self.
Qed.

(** ** copy of a contiguous term *)
Section Cont.
Variables (m0 : mem) (base top delta : Z).
Hypothesis Okc : forall x, base <= x < top -> exists c, m0 x = Some c /\ okc m0 base top c.
Hypothesis Dis : forall x, base <= x < top -> ~ (base <= x + delta < top).
Let mr := region base top m0.

Definition done (m : mem) (y : addr) : Prop := m (y + delta) = option_map (shift delta) (m0 y).
Definition Inv (m : mem) : Prop :=
  forall x, m x = m0 x \/ exists y, base <= y < top /\ x = y + delta /\ done m y.
Lemma inv_src m x : Inv m -> base <= x < top -> m x = m0 x.
Proof. intros Hi R. destruct (Hi x) as [Q|(y & Ry & -> & _)]; auto. now destruct (Dis y Ry). Qed.
Lemma inv_store m y c : Inv m -> base <= y < top -> m0 y = Some c -> Inv (store m (y + delta) (shift delta c)).
Proof.
  intros Hi R E x. destruct (Z.eq_dec x (y + delta)) as [->|N].
  - right. exists y. split; auto. split; auto. unfold done. rewrite store_same, E. reflexivity.
  - rewrite store_other by auto. destruct (Hi x) as [Q|(z & Rz & -> & Dz)]; auto. right. exists z. split; auto. split; auto.
    unfold done. rewrite store_other; auto.
Qed.
Lemma done_store m y c z : done m z -> m0 y = Some c -> done (store m (y + delta) (shift delta c)) z.
Proof.
  intros Dz E. unfold done in *. destruct (Z.eq_dec z y) as [->|N].
  - now rewrite store_same, E.
  - rewrite store_other by lia. exact Dz.
Qed.
Lemma done_now m y c : m0 y = Some c -> done (store m (y + delta) (shift delta c)) y.
Proof. intros E. unfold done. now rewrite store_same, E. Qed.
Lemma mr_some x c : mr x = Some c -> base <= x < top /\ m0 x = Some c.
Proof. apply region_some. Qed.
Lemma mr_okc x c : mr x = Some c -> okc m0 base top c.
Proof. intros E. apply mr_some in E as [R E]. destruct (Okc x R) as (c' & E' & Oc). congruence. Qed.

Lemma Cont_both :
  (forall w t, den mr w t -> forall src m, mr src = Some (Word w) -> Inv m ->
     exists F m', (forall fuel, (F <= fuel)%nat -> Copy_Contiguous_Term fuel m (src + delta) src = Ret m') /\
       Inv m' /\ (forall z, done m z -> done m' z) /\ (forall y, sreach mr src y -> done m' y)) /\
  (forall a ts, den_args mr a ts -> ts <> [] -> forall m, Inv m ->
     exists F m', (forall fuel, (F <= fuel)%nat ->
        copy_cont_args (Copy_Contiguous_Term fuel) (length ts) m (a + delta) a = Ret m') /\
       Inv m' /\ (forall z, done m z -> done m' z) /\
       (forall i y, 0 <= i < Z.of_nat (length ts) -> sreach mr (a + i) y -> done m' y)).
Proof.
  apply (den_both mr
   (fun w t _ => forall src m, mr src = Some (Word w) -> Inv m ->
     exists F m', (forall fuel, (F <= fuel)%nat -> Copy_Contiguous_Term fuel m (src + delta) src = Ret m') /\
       Inv m' /\ (forall z, done m z -> done m' z) /\ (forall y, sreach mr src y -> done m' y))
   (fun a ts _ => ts <> [] -> forall m, Inv m ->
     exists F m', (forall fuel, (F <= fuel)%nat ->
        copy_cont_args (Copy_Contiguous_Term fuel) (length ts) m (a + delta) a = Ret m') /\
       Inv m' /\ (forall z, done m z -> done m' z) /\
       (forall i y, 0 <= i < Z.of_nat (length ts) -> sreach mr (a + i) y -> done m' y))).
  - (* variable *)
    intros a E src m Es Hi. pose proof (mr_some _ _ E) as [Ra E0]. pose proof (mr_some _ _ Es) as [Rs Es0].
    assert (Hs : forall y, sreach mr src y -> y = src) by (intros y Q; inversion Q; subst; auto; congruence).
    set (m1 := store m (src + delta) (shift delta (Word (REF a)))).
    assert (I1 : Inv m1) by (apply inv_store; auto).
    set (m2 := store m1 (a + delta) (shift delta (Word (REF a)))).
    assert (I2 : Inv m2) by (apply inv_store; auto).
    destruct (Z.ltb_spec src a) as [Hlt|Hge].
    + exists 2%nat, m2. split; [|split; [auto|split]].
      * intros [|[|f]] Lf; try lia. cbn [Copy_Contiguous_Term]. unfold rd_word at 1. rewrite (inv_src m src), Es0 by auto. cbn [bind].
        replace (src + delta + (a - src)) with (a + delta) by lia.
        destruct (Z.ltb_spec src a); [|lia]. change (store m (src + delta) (Word (REF (a + delta)))) with m1.
        unfold rd_word. rewrite (inv_src m1 a), E0 by auto. cbn [bind].
        destruct (Z.ltb_spec a a); [lia|]. replace (a + delta + (a - a)) with (a + delta) by lia. reflexivity.
      * intros z Dz. apply done_store; auto. apply done_store; auto.
      * intros y Q. rewrite (Hs y Q). apply done_store; auto. apply done_now; auto.
    + exists 1%nat, m1. split; [|split; [auto|split]].
      * intros [|f] Lf; try lia. cbn [Copy_Contiguous_Term]. unfold rd_word at 1. rewrite (inv_src m src), Es0 by auto. cbn [bind].
        replace (src + delta + (a - src)) with (a + delta) by lia.
        destruct (Z.ltb_spec src a); [lia|]. reflexivity.
      * intros z Dz. apply done_store; auto.
      * intros y Q. rewrite (Hs y Q). apply done_now; auto.
  - (* no longer chain *)
    intros b w t E N D IH src m Es Hi. destruct (mr_okc _ _ Es) as [_ E']. apply mr_some in E as [_ E]. congruence.
  - intros a src m Es. destruct (mr_okc _ _ Es).
  - (* float *)
    intros a d E src m Es Hi. pose proof (mr_some _ _ E) as [Ra E0]. pose proof (mr_some _ _ Es) as [Rs Es0].
    exists 1%nat, (store (store m (a + delta) (shift delta (Dbl d))) (src + delta) (shift delta (Word (FLT a)))).
    split; [|split; [|split]].
    + intros [|f] Lf; try lia. cbn [Copy_Contiguous_Term]. unfold rd_word. rewrite (inv_src m src), Es0 by auto. cbn [bind].
      replace (src + delta + (a - src)) with (a + delta) by lia. unfold rd_dbl. rewrite (inv_src m a), E0 by auto. reflexivity.
    + apply inv_store; auto. apply inv_store; auto.
    + intros z Dz. apply done_store; auto. apply done_store; auto.
    + intros y Q. inversion Q; subst; try congruence; [apply done_now; auto|].
      assert (y = a) by congruence. subst. apply done_store; auto. apply done_now; auto.
  - intros n src m Es Hi. pose proof (mr_some _ _ Es) as [Rs Es0].
    exists 1%nat, (store m (src + delta) (shift delta (Word (INT n)))). split; [|split; [|split]].
    + intros [|f] Lf; try lia. cbn [Copy_Contiguous_Term]. unfold rd_word. now rewrite (inv_src m src), Es0 by auto.
    + apply inv_store; auto.
    + intros z Dz. apply done_store; auto.
    + intros y Q. inversion Q; subst; try congruence. apply done_now; auto.
  - intros n src m Es Hi. pose proof (mr_some _ _ Es) as [Rs Es0].
    exists 1%nat, (store m (src + delta) (shift delta (Word (ATM n)))). split; [|split; [|split]].
    + intros [|f] Lf; try lia. cbn [Copy_Contiguous_Term]. unfold rd_word. now rewrite (inv_src m src), Es0 by auto.
    + apply inv_store; auto.
    + intros z Dz. apply done_store; auto.
    + intros y Q. inversion Q; subst; try congruence. apply done_now; auto.
  - (* list *)
    intros a t1 t2 D IH src m Es Hi. pose proof (mr_some _ _ Es) as [Rs Es0].
    set (m1 := store m (src + delta) (shift delta (Word (LST a)))).
    assert (I1 : Inv m1) by (apply inv_store; auto).
    destruct (IH ltac:(discriminate) m1 I1) as (F & m' & H & I2 & Mo & Dn). exists (S F), m'. split; [|split; [auto|split]].
    + intros [|f] Lf; try lia. cbn [Copy_Contiguous_Term]. unfold rd_word at 1. rewrite (inv_src m src), Es0 by auto. cbn [bind].
      replace (src + delta + (a - src)) with (a + delta) by lia. exact (H f ltac:(lia)).
    + intros z Dz. apply Mo. apply done_store; auto.
    + intros y Q. inversion Q; subst; try congruence; [apply Mo; apply done_now; auto|].
      assert (q = a) by congruence. subst. apply (Dn i); auto.
  - (* structure *)
    intros a f ts E D IH src m Es Hi. pose proof (mr_some _ _ Es) as [Rs Es0]. pose proof (mr_some _ _ E) as [Ra E0].
    destruct (mr_okc _ _ Es) as (f' & n' & _ & E' & Hn & _). rewrite E0 in E'. injection E' as <- <-.
    set (m1 := store m (src + delta) (shift delta (Word (STC a)))).
    set (m2 := store m1 (a + delta) (shift delta (Func f (length ts)))).
    assert (I1 : Inv m1) by (apply inv_store; auto).
    assert (I2 : Inv m2) by (apply inv_store; auto).
    destruct (IH ltac:(destruct ts; [cbn in Hn; lia|discriminate]) m2 I2) as (F & m' & H & I3 & Mo & Dn).
    exists (S F), m'. split; [|split; [auto|split]].
    + intros [|fu] Lf; try lia. cbn [Copy_Contiguous_Term]. unfold rd_word at 1. rewrite (inv_src m src), Es0 by auto. cbn [bind].
      replace (src + delta + (a - src)) with (a + delta) by lia.
      change (store m (src + delta) (Word (STC (a + delta)))) with m1. unfold rd_func.
      rewrite (inv_src m1 a), E0 by auto. cbn [bind fst snd]. specialize (H fu ltac:(lia)).
      replace (a + 1 + delta) with (a + delta + 1) in H by lia. exact H.
    + intros z Dz. apply Mo. apply done_store; auto. apply done_store; auto.
    + intros y Q. inversion Q; subst; try congruence.
      * apply Mo. apply done_store; auto. apply done_now; auto.
      * assert (y = a) by congruence. subst. apply Mo. apply done_now; auto.
      * assert (q = a) by congruence. subst. assert (n = length ts) by congruence. subst. apply (Dn i); auto.
  - congruence.
  - intros a w t ts E D IHw Ds IH _ m Hi. destruct (IHw a m E Hi) as (F & m1 & H & I1 & Mo & Dn).
    destruct ts as [|t' ts].
    + exists F, m1. split; [exact H|]. split; auto. split; auto. intros i y Ri Q. cbn in Ri. assert (i = 0) by lia. subst.
      rewrite Z.add_0_r in Q. auto.
    + destruct (IH ltac:(discriminate) m1 I1) as (F2 & m2 & H2 & I2 & Mo2 & Dn2). exists (F + F2)%nat, m2.
      split; [|split; [auto|split; [auto|]]].
      * intros fu Lf. specialize (H2 fu ltac:(lia)). specialize (H fu ltac:(lia)). cbn [length copy_cont_args] in *.
        rewrite H. cbn [bind]. replace (a + delta + 1) with (a + 1 + delta) by lia. exact H2.
      * intros i y Ri Q. destruct (Z.eq_dec i 0) as [->|N].
        -- apply Mo2. rewrite Z.add_0_r in Q. auto.
        -- apply (Dn2 (i - 1)); [change (length (t :: t' :: ts)) with (S (length (t' :: ts))) in Ri; lia|].
           replace (a + 1 + (i - 1)) with (a + i) by lia. exact Q.
Qed.

Lemma den_shift m : (forall x, base <= x < top -> done m x) ->
  (forall w t, den mr w t -> nofd t = true ->
     den (region (base + delta) (top + delta) m) (shiftw delta w) (ren (fun a => a + delta) t)) /\
  (forall a ts, den_args mr a ts -> forallb nofd ts = true ->
     den_args (region (base + delta) (top + delta) m) (a + delta) (map (ren (fun a => a + delta)) ts)).
Proof.
  intros Dn. set (mr' := region (base + delta) (top + delta) m).
  assert (Sh : forall x c, mr x = Some c -> mr' (x + delta) = Some (shift delta c)).
  { intros x c E. apply mr_some in E as [R E]. unfold mr'. rewrite region_in by lia.
    specialize (Dn x R). unfold done in Dn. rewrite Dn, E. reflexivity. }
  apply (den_both mr
   (fun w t _ => nofd t = true -> den mr' (shiftw delta w) (ren (fun a => a + delta) t))
   (fun a ts _ => forallb nofd ts = true -> den_args mr' (a + delta) (map (ren (fun a => a + delta)) ts))).
  - intros a E _. apply den_var. exact (Sh _ _ E).
  - intros b w t E N D IH Nf. apply den_ref with (w := shiftw delta w); auto; [exact (Sh _ _ E)|].
    intros Q. apply N. destruct w; try discriminate. cbn in Q. f_equal. injection Q. lia.
  - discriminate.
  - intros a d E _. apply den_flt. exact (Sh _ _ E).
  - constructor.
  - constructor.
  - intros a t1 t2 D IH Nf. apply den_lst. apply IH. exact Nf.
  - intros a f ts E D IH Nf. apply den_stc.
    + rewrite map_length. exact (Sh _ _ E).
    + replace (a + delta + 1) with (a + 1 + delta) by lia. apply IH. exact Nf.
  - intros a _. constructor.
  - intros a w t ts E D IHw Ds IH Nf. apply andb_true_iff in Nf as [N1 N2]. econstructor; [exact (Sh _ _ E)|auto|].
    replace (a + delta + 1) with (a + 1 + delta) by lia. auto.
Qed.
End Cont.

Lemma ren_ren f g t : ren f (ren g t) = ren (fun a => f (g a)) t.
Proof.
  induction t as [a|a|d|n|i|h ts IH] using term_ind'; cbn; auto. f_equal. rewrite map_map.
  induction IH as [|t ts H1 _ IH]; cbn; auto. now rewrite H1, IH.
Qed.
Lemma nofd_ren f t : nofd (ren f t) = nofd t.
Proof.
  induction t as [a|a|d|n|i|h ts IH] using term_ind'; cbn; auto.
  induction IH as [|t ts H1 _ IH]; cbn; auto. now rewrite H1, IH.
Qed.

(** ** more fuel *)
Lemma copy_mono lim base : forall f f', (f <= f')%nat -> forall s dst w r,
  Copy_Term_Rec lim base f s dst w = Ret r -> Copy_Term_Rec lim base f' s dst w = Ret r.
Proof.
  induction f as [|f IH]; intros f' Hf s dst w r Q; [discriminate|]. destruct f' as [|f']; [lia|].
  assert (IA : forall n s q a r, copy_args (Copy_Term_Rec lim base f) n s q a = Ret r ->
     copy_args (Copy_Term_Rec lim base f') n s q a = Ret r).
  { induction n as [|n IHn]; intros s1 q a r1 Q1; cbn [copy_args] in *; [discriminate|].
    destruct (rd_word (cm s1) a) as [v| |]; try discriminate. cbn [bind] in *.
    destruct n as [|n]; [exact (IH f' ltac:(lia) _ _ _ _ Q1)|].
    destruct (Copy_Term_Rec lim base f s1 q v) as [r2| |] eqn:E; try discriminate.
    rewrite (IH f' ltac:(lia) _ _ _ _ E). cbn [bind] in *. destruct r2; auto. }
  cbn [Copy_Term_Rec] in *. destruct (deref f (cm s) w) as [d| |] eqn:E; try discriminate.
  assert (E' : deref f' (cm s) w = Ret d).
  { replace f' with (f' - f + f)%nat by lia. clear - E. induction (f' - f)%nat as [|k IHk]; auto.
    cbn [Nat.add]. apply (deref_mono (k + f)); auto. discriminate. }
  rewrite E'. cbn [bind] in *. destruct d; auto. destruct (rd_func (cm s) a) as [fn| |]; try discriminate. cbn [bind] in *. auto.
Qed.
