Require Import ZArith List Bool Lia PeanoNat.
Require Import Verif.Term_Model Verif.Heap_Model Verif.Heap_Proofs Verif.Unify_Model Verif.Unify_Spec Verif.Unify_Proofs.
Require Import Verif.Acyclic_Model.
Import ListNotations.
Open Scope Z_scope.

(** ** a word stands for one finite term at most *)
Lemma den_fun_both m :
  (forall w t, den m w t -> forall t', den m w t' -> t = t') /\
  (forall a ts, den_args m a ts -> forall ts', den_args m a ts' -> length ts' = length ts -> ts = ts').
Proof.
  apply (den_both m (fun w t _ => forall t', den m w t' -> t = t')
    (fun a ts _ => forall ts', den_args m a ts' -> length ts' = length ts -> ts = ts')).
  - intros a E t' D. inversion D; subst; congruence.
  - intros a w t E N D IH t' D'. inversion D' as [? E'|? w' ? E' N' D2| | | | | |]; subst; [congruence|].
    rewrite E in E'. injection E' as <-. auto.
  - intros a t' D. inversion D; subst; auto.
  - intros a d E t' D. inversion D; subst. congruence.
  - intros n t' D. inversion D; subst; auto.
  - intros n t' D. inversion D; subst; auto.
  - intros a t1 t2 D IH t' D'. inversion D'; subst. f_equal. apply IH; auto.
  - intros a f ts E D IH t' D'. inversion D' as [| | | | | | |? f' ts' E' D2]; subst.
    rewrite E in E'. injection E' as <- Hl. f_equal. apply IH; auto.
  - intros a ts' _ Hl. destruct ts'; [auto|discriminate].
  - intros a w t ts E D IH Ds IHs ts' D' Hl. inversion D' as [|? w' t' ts2 E' D2 Ds2]; subst; [discriminate|].
    rewrite E in E'. injection E' as <-. cbn in Hl. f_equal; auto.
Qed.
Lemma den_fun m w t t' : den m w t -> den m w t' -> t = t'.
Proof. intros D D'. exact (proj1 (den_fun_both m) w t D t' D'). Qed.

Fixpoint tsz (t : term) : nat :=
  match t with TCmp _ ts => S (fold_right Nat.add O (map tsz ts)) | _ => 1%nat end.
Lemma tsz_arg f t ts : In t ts -> (tsz t < tsz (TCmp f ts))%nat.
Proof.
  intros I. cbn. apply -> Nat.lt_succ_r. induction ts as [|x ts IH]; [destruct I|]. cbn.
  destruct I as [->|I]; [lia|]. specialize (IH I). lia.
Qed.

Lemma den_args_nth m : forall ts a i w, den_args m a ts -> (i < length ts)%nat ->
  m (a + Z.of_nat i) = Some (Word w) -> exists t, In t ts /\ den m w t.
Proof.
  induction ts as [|t ts IH]; intros a i w D Hi E; [cbn in Hi; lia|].
  inversion D as [|? w' ? ? E' D1 D2]; subst. destruct i as [|i].
  - cbn [Z.of_nat] in E. rewrite Z.add_0_r in E. rewrite E' in E. injection E as ->. exists t. split; [now left|auto].
  - destruct (IH (a + 1) i w D2) as (t1 & I1 & D3); [cbn in Hi; lia|rewrite <- E; f_equal; lia|].
    exists t1. split; [now right|auto].
Qed.

Lemma den_args_build m n : forall a, words_at m a n ->
  (forall i w, (i < n)%nat -> m (a + Z.of_nat i) = Some (Word w) -> exists t, den m w t) ->
  exists ts, length ts = n /\ den_args m a ts.
Proof.
  induction n as [|n IH]; intros a Ws Hd; [exists []; split; [auto|constructor]|].
  destruct (Ws 0%nat ltac:(lia)) as [w E]. destruct (Hd 0%nat w ltac:(lia) E) as [t D].
  destruct (IH (a + 1)) as (ts & Hl & Ds).
  - intros i Hi. destruct (Ws (S i) ltac:(lia)) as [w' E']. exists w'. rewrite <- E'. f_equal. lia.
  - intros i w' Hi E'. apply (Hd (S i) w'); [lia|]. rewrite <- E'. f_equal. lia.
  - exists (t :: ts). split; [cbn; lia|]. econstructor; eauto. rewrite <- E. f_equal. lia.
Qed.

Section Acyclic.
Variables (L sw : addr) (m0 : mem) (D : list addr).
Hypothesis W : wf L m0.
Hypothesis NoSw : m0 sw = None.
Hypothesis NoNull : m0 0 = None.
Hypothesis Cov : forall a c, m0 a = Some c -> In a D.

(** the memory during the traversal: the cells of [P] are marked, the C variable
    start_word is arbitrary *)
Definition marked (m : mem) (P : list addr) : Prop :=
  (forall x, x <> sw -> In x P -> m x = Some (Word CYCLIC_MARK)) /\
  (forall x, x <> sw -> ~ In x P -> m x = m0 x).

(** a marked cell contains a compound term *)
Definition compound (w : word) : Prop := exists d, derefs m0 w d /\ ((exists b, d = LST b) \/ (exists b, d = STC b)).
Definition path_ok (P : list addr) : Prop := NoDup P /\
  forall c, In c P -> exists w, m0 c = Some (Word w) /\ compound w.

(** if one of the marked cells is a finite term, [w] is a smaller one *)
Definition below (P : list addr) (w : word) : Prop :=
  forall c wc t, In c P -> m0 c = Some (Word wc) -> den m0 wc t ->
    exists t', den m0 w t' /\ (tsz t' < tsz t)%nat.

Lemma not_mark w : wf_word L m0 w -> w <> CYCLIC_MARK.
Proof. intros Ww ->. destruct Ww as [_ Ws]. destruct (Ws 0%nat ltac:(lia)) as [w E]. cbn in E. congruence. Qed.

Lemma compound_not_self c w : m0 c = Some (Word w) -> compound w -> w <> REF c.
Proof.
  intros E (d & Dd & Hd) ->. assert (d = REF c).
  { apply (derefs_det _ _ _ Dd). now apply drf_self. }
  subst. destruct Hd as [[b Q]|[b Q]]; discriminate.
Qed.

Lemma marked_derefs m P w d : marked m P -> path_ok P -> derefs m0 w d ->
  derefs m w d \/
  (derefs m w CYCLIC_MARK /\ exists c wc, In c P /\ m0 c = Some (Word wc) /\
     forall t, den m0 w t -> den m0 wc t).
Proof.
  intros [M1 M2] [_ Pk] Dd. induction Dd as [a E|a w d E N Dd IH|w N].
  - left. apply drf_self. rewrite M2; auto; [congruence|]. intros I.
    destruct (Pk a I) as (w & E' & Cw). apply (compound_not_self a w E' Cw). congruence.
  - assert (Na : a <> sw) by congruence. destruct (in_dec Z.eq_dec a P) as [I|I].
    + right. split.
      * eapply drf_step; [apply M1; auto|discriminate|apply drf_other; discriminate].
      * exists a, w. split; auto. split; auto. intros t Dt. inversion Dt; subst; congruence.
    + destruct IH as [D2|[D2 (c & wc & Ic & Ec & Hc)]].
      * left. eapply drf_step; eauto. now rewrite M2.
      * right. split; [eapply drf_step; eauto; now rewrite M2|].
        exists c, wc. split; auto. split; auto. intros t Dt. apply Hc. inversion Dt; subst; congruence.
  - left. now apply drf_other.
Qed.

(** ** runs of the loop *)
Definition reaches (s s' : ast) : Prop := exists N F, forall fuel, (F <= fuel)%nat ->
  acyclic_loop sw (N + fuel) s = acyclic_loop sw fuel s'.
Lemma reaches_refl s : reaches s s.
Proof. exists O, O. auto. Qed.
Lemma reaches_trans s1 s2 s3 : reaches s1 s2 -> reaches s2 s3 -> reaches s1 s3.
Proof.
  intros (N1 & F1 & H1) (N2 & F2 & H2). exists (N1 + N2)%nat, (Nat.max F1 F2). intros fuel Hf.
  replace (N1 + N2 + fuel)%nat with (N1 + (N2 + fuel))%nat by lia. rewrite H1 by lia. apply H2. lia.
Qed.
Lemma reaches_step m e k b s' F : (forall fuel, (F <= fuel)%nat -> acyclic_step sw fuel (Ast m (e :: k) b) e k = Ret s') ->
  reaches (Ast m (e :: k) b) s'.
Proof.
  intros Hs. exists 1%nat, F. intros fuel Hf. cbn [Nat.add acyclic_loop ast_stack].
  rewrite Hs by lia. reflexivity.
Qed.

Definition nofin (w : word) : Prop := forall t, ~ den m0 w t.

(** what checking [n] cells from [a] does *)
Definition args_run (P : list addr) (n : nat) : Prop := forall a k m, marked m P ->
  words_at m0 a n -> (forall i w, (i < n)%nat -> m0 (a + Z.of_nat i) = Some (Word w) -> below P w) ->
  exists m' b, reaches (Ast m (Check n a :: k) true) (Ast m' k b) /\ marked m' P /\
    (b = true -> forall i w, (i < n)%nat -> m0 (a + Z.of_nat i) = Some (Word w) -> exists t, den m0 w t) /\
    (b = false -> exists i w, (i < n)%nat /\ m0 (a + Z.of_nat i) = Some (Word w) /\ nofin w).

Lemma marked_sw m P w : marked m P -> marked (store m sw (Word w)) P.
Proof. intros [M1 M2]. split; intros x Nx Ix; rewrite store_other by auto; auto. Qed.

(** checking one cell [a] containing [w] *)
Lemma one_run P P' n a w k m :
  marked m P -> path_ok P -> m a = Some (Word w) -> wf_word L m0 w -> below P w ->
  (a = sw /\ P' = P \/ m0 a = Some (Word w) /\ P' = a :: P /\ ~ In a P) ->
  (compound w -> forall n', (1 <= n')%nat -> args_run P' n') ->
  let k' := match n with O => k | _ => Check n (a + 1) :: k end in
  exists m' b, reaches (Ast m (Check (S n) a :: k) true) (Ast m' k' b) /\ marked m' P /\
    (b = true -> exists t, den m0 w t) /\ (b = false -> nofin w).
Proof.
  intros Mk Pk Ea Ww Bw Ha Run k'. destruct (derefs_total L m0 W w Ww) as [d Dd].
  assert (Mk1 := marked_sw m P w Mk). set (m1 := store m sw (Word w)) in *.
  assert (Wd := derefs_wf L m0 w d W Dd Ww).
  destruct (marked_derefs m1 P w d Mk1 Pk Dd) as [D1|[D1 (c & wc & Ic & Ec & Hc)]].
  2:{ (* a cycle *)
    destruct (derefs_fun _ _ _ D1) as [F HF]. exists m1, false. split.
    - apply (reaches_step _ _ _ _ _ F). intros fuel Hf. cbn [acyclic_step ok negb am].
      unfold rd_word. rewrite Ea. cbn [bind]. fold m1. rewrite HF by auto. reflexivity.
    - split; auto. split; [discriminate|]. intros _ t Dt.
      destruct (Bw c wc t Ic Ec (Hc t Dt)) as (t' & Dt' & Lt). rewrite (den_fun _ _ _ _ Dt Dt') in Lt. lia. }
  destruct (derefs_fun _ _ _ D1) as [F HF]. assert (Nm := not_mark d Wd).
  assert (Eq : word_eqb d CYCLIC_MARK = false) by now apply word_eqb_neq.
  assert (Simple : (forall b, d <> LST b) -> (forall b, d <> STC b) ->
    reaches (Ast m (Check (S n) a :: k) true) (Ast m1 k' true)).
  { intros N1 N2. apply (reaches_step _ _ _ _ _ F). intros fuel Hf. cbn [acyclic_step ok negb am].
    unfold rd_word. rewrite Ea. cbn [bind]. fold m1. rewrite HF by auto. cbn [bind]. rewrite Eq.
    destruct d; try reflexivity; [destruct (N1 _ eq_refl)|destruct (N2 _ eq_refl)]. }
  (* a compound term with [n'] arguments from [b] *)
  assert (Comp : compound w -> forall n' b, (1 <= n')%nat ->
     (forall fuel, (F <= fuel)%nat -> acyclic_step sw fuel (Ast m (Check (S n) a :: k) true) (Check (S n) a) k =
        Ret (Ast (store m1 a (Word CYCLIC_MARK)) (Check n' b :: Restore w a :: k') true)) ->
     words_at m0 b n' ->
     (forall t, den m0 w t -> exists f ts, t = TCmp f ts /\ length ts = n' /\ den_args m0 b ts) ->
     ((exists ts, length ts = n' /\ den_args m0 b ts) -> exists t, den m0 w t) ->
     exists m' b0, reaches (Ast m (Check (S n) a :: k) true) (Ast m' k' b0) /\ marked m' P /\
       (b0 = true -> exists t, den m0 w t) /\ (b0 = false -> nofin w)).
  { intros Cw n' b Hn Hs Ws Hden Hden2.
    assert (Mk2 : marked (store m1 a (Word CYCLIC_MARK)) P').
    { destruct Mk1 as [M1 M2]. destruct Ha as [[-> ->]|(Ea0 & -> & Na)].
      - split; intros x Nx Ix; rewrite store_other by auto; auto.
      - split; intros x Nx Ix.
        + destruct (Z.eq_dec x a) as [->|Nxa]; [apply store_same|]. rewrite store_other by auto.
          apply M1; auto. destruct Ix as [->|Ix]; [congruence|auto].
        + rewrite store_other; [apply M2; auto; intros Ix'; apply Ix; now right|]. intros ->. apply Ix. now left. }
    destruct (Run Cw n' Hn b (Restore w a :: k') _ Mk2 Ws) as (m2 & b0 & R2 & Mk3 & T2 & F2).
    { intros i wi Hi Ei c wc t Ic Ec Dc.
      assert (Arg : forall t1, den m0 w t1 -> exists t', den m0 wi t' /\ (tsz t' < tsz t1)%nat).
      { intros t1 D3. destruct (Hden t1 D3) as (f & ts & -> & Hl & Ds).
        destruct (den_args_nth m0 ts b i wi Ds ltac:(lia) Ei) as (t' & It & Dt'). exists t'. split; auto.
        now apply tsz_arg. }
      assert (In c P \/ c = a /\ m0 a = Some (Word w)) as [Icp|[-> Ea0]].
      { destruct Ha as [[-> ->]|(Ea0 & -> & Na)]; auto. destruct Ic as [->|Ic]; auto. }
      - destruct (Bw c wc t Icp Ec Dc) as (t1 & D3 & L3). destruct (Arg t1 D3) as (t2 & D4 & L4).
        exists t2. split; auto. lia.
      - rewrite Ea0 in Ec. injection Ec as <-. apply Arg; auto. }
    exists (store m2 a (Word w)), b0. split; [|split].
    - eapply reaches_trans; [exact (reaches_step _ _ _ _ _ F Hs)|]. eapply reaches_trans; [exact R2|].
      apply (reaches_step _ _ _ _ _ O). intros fuel _. reflexivity.
    - destruct Mk3 as [M1 M2]. destruct Ha as [[-> ->]|(Ea0 & -> & Na)].
      + split; intros x Nx Ix; rewrite store_other by auto; auto.
      + split; intros x Nx Ix.
        * rewrite store_other; [apply M1; auto; now right|]. congruence.
        * destruct (Z.eq_dec x a) as [->|Nxa]; [rewrite store_same; congruence|]. rewrite store_other by auto.
          apply M2; auto. intros [Q|Q]; congruence.
    - split.
      + intros Tb. apply Hden2. apply den_args_build; auto. exact (T2 Tb).
      + intros Fb t Dt. destruct (F2 Fb) as (i & wi & Hi & Ei & Ni).
        destruct (Hden t Dt) as (f & ts & -> & Hl & Ds).
        destruct (den_args_nth m0 ts b i wi Ds ltac:(lia) Ei) as (t' & _ & Dt'). exact (Ni t' Dt'). }
  assert (Dw : forall t, den m0 w t -> den m0 d t) by (intros t; exact (derefs_den _ _ _ Dd t)).
  assert (Dw2 : forall t, den m0 d t -> den m0 w t) by (intros t; exact (derefs_den_back _ _ _ Dd t)).
  destruct d as [b|b|b|i|b|b|j].
  - (* variable *) exists m1, true. split; [apply Simple; discriminate|]. split; auto. split; [|discriminate].
    intros _. exists (TVar b). apply Dw2. destruct (derefs_result _ _ _ Dd) as [(x & Q & E)|Q].
    + assert (x = b) by congruence. subst x. now apply den_var.
    + exfalso. eapply Q. reflexivity.
  - apply (Comp ltac:(exists (LST b); eauto) 2%nat b); auto.
    + intros fuel Hf. cbn [acyclic_step ok negb am]. unfold rd_word. rewrite Ea. cbn [bind]. fold m1.
      rewrite HF by auto. cbn [bind]. rewrite Eq. reflexivity.
    + apply Wd.
    + intros t Dt. apply Dw in Dt. inversion Dt as [| | | | | |? t1 t2 Ds|]; subst. exists ATOM_DOT, [t1; t2]. auto.
    + intros ([|t1 [|t2 [|]]] & Hl & Ds); try discriminate. exists (TCmp ATOM_DOT [t1; t2]). apply Dw2. now constructor.
  - destruct Wd as (f & n' & Ef & Hn & _ & _ & Ws).
    assert (Ef1 : m1 b = Some (Func f n')).
    { assert (Nb : b <> sw) by congruence. unfold m1. rewrite store_other by auto.
      destruct Mk as [M1 M2]. rewrite M2; auto. intros I. destruct Pk as [_ Pk]. destruct (Pk b I) as (x & Ex & _). congruence. }
    apply (Comp ltac:(exists (STC b); eauto) n' (b + 1)); auto.
    + intros fuel Hf. cbn [acyclic_step ok negb am]. unfold rd_word. rewrite Ea. cbn [bind]. fold m1.
      rewrite HF by auto. cbn [bind]. rewrite Eq. unfold rd_func. rewrite Ef1. reflexivity.
    + intros t Dt. apply Dw in Dt. inversion Dt as [| | | | | | |? f' ts Ef' Ds]; subst.
      rewrite Ef in Ef'. injection Ef' as <- ->. exists f, ts. auto.
    + intros (ts & Hl & Ds). exists (TCmp f ts). apply Dw2. constructor; auto. congruence.
  - exists m1, true. split; [apply Simple; discriminate|]. split; auto. split; [|discriminate].
    intros _. exists (TAtm i). apply Dw2. constructor.
  - exists m1, true. split; [apply Simple; discriminate|]. split; auto. split; [|discriminate].
    intros _. destruct Wd as (x & Ex & _). exists (TFlt x). apply Dw2. now constructor.
  - exists m1, true. split; [apply Simple; discriminate|]. split; auto. split; [|discriminate].
    intros _. exists (TFdv b). apply Dw2. constructor.
  - exists m1, true. split; [apply Simple; discriminate|]. split; auto. split; [|discriminate].
    intros _. exists (TInt j). apply Dw2. constructor.
Qed.

Lemma args_run_all : forall q P, (length D - length P <= q)%nat -> path_ok P ->
  forall n, (1 <= n)%nat -> args_run P n.
Proof.
  induction q as [q IHq] using (well_founded_induction lt_wf). intros P Hq Pk.
  assert (HP : incl P D).
  { intros c I. destruct Pk as [_ Pk]. destruct (Pk c I) as (w & E & _). eapply Cov; eauto. }
  induction n as [|n IHn]; intros Hn a k m Mk Ws Hb; [lia|].
  destruct (Ws 0%nat ltac:(lia)) as [w Ew]. assert (Ew1 := Ew). cbn [Z.of_nat] in Ew1. rewrite Z.add_0_r in Ew1.
  assert (Na : a <> sw) by congruence.
  assert (One : exists m' b, reaches (Ast m (Check (S n) a :: k) true)
      (Ast m' (match n with O => k | _ => Check n (a + 1) :: k end) b) /\ marked m' P /\
    (b = true -> exists t, den m0 w t) /\ (b = false -> nofin w)).
  { destruct (in_dec Z.eq_dec a P) as [I|I].
    - (* the cell itself is marked *)
      exists (store m sw (Word CYCLIC_MARK)), false. split; [|split].
      + apply (reaches_step _ _ _ _ _ 1%nat). intros fuel Hf. cbn [acyclic_step ok negb am].
        unfold rd_word. destruct Mk as [M1 M2]. rewrite M1 by auto. cbn [bind].
        destruct fuel as [|fuel]; [lia|]. reflexivity.
      + now apply marked_sw.
      + split; [discriminate|]. intros _ t Dt.
        destruct (Hb 0%nat w ltac:(lia) Ew a w t I Ew1 Dt) as (t' & Dt' & Lt).
        rewrite (den_fun _ _ _ _ Dt Dt') in Lt. lia.
    - apply (one_run P (a :: P) n a w k m); auto.
      + destruct Mk as [M1 M2]. now rewrite M2.
      + eapply wf_cell; eauto.
      + apply (Hb 0%nat w ltac:(lia) Ew).
      + intros Cw n' Hn'.
        assert (Pk' : path_ok (a :: P)).
        { destruct Pk as [Nd Pk]. split; [now constructor|]. intros c [<-|Ic]; eauto. }
        assert (Hl : (length (a :: P) <= length D)%nat).
        { apply NoDup_incl_length; [apply Pk'|]. intros c [<-|Ic]; [eapply Cov; eauto|auto]. }
        apply (IHq (length D - length (a :: P))%nat); auto. cbn [length] in *. lia. }
  destruct One as (m1 & b1 & R1 & Mk1 & T1 & F1). destruct n as [|n].
  - exists m1, b1. split; auto. split; auto. split.
    + intros Tb i wi Hi Ei. assert (i = 0%nat) by lia. subst i. rewrite Ew in Ei. injection Ei as <-. auto.
    + intros Fb. exists 0%nat, w. split; [lia|auto].
  - destruct b1.
    + destruct (IHn ltac:(lia) (a + 1) k m1 Mk1) as (m2 & b2 & R2 & Mk2 & T2 & F2).
      * intros i Hi. destruct (Ws (S i) ltac:(lia)) as [wi Ei]. exists wi. rewrite <- Ei. f_equal. lia.
      * intros i wi Hi Ei. apply (Hb (S i) wi ltac:(lia)). rewrite <- Ei. f_equal. lia.
      * exists m2, b2. split; [eapply reaches_trans; eauto|]. split; auto. split.
        -- intros Tb [|i] wi Hi Ei; [rewrite Ew in Ei; injection Ei as <-; auto|].
           apply (T2 Tb i wi ltac:(lia)). rewrite <- Ei. f_equal. lia.
        -- intros Fb. destruct (F2 Fb) as (i & wi & Hi & Ei & Ni). exists (S i), wi. split; [lia|].
           split; auto. rewrite <- Ei. f_equal. lia.
    + exists m1, false. split; [|split; auto; split; [discriminate|]].
      * eapply reaches_trans; [exact R1|]. apply (reaches_step _ _ _ _ _ O). intros fuel _. reflexivity.
      * intros _. exists 0%nat, w. split; [lia|]. auto.
Qed.

Theorem Acyclic_correct w : wf_word L m0 w ->
  exists F b m', (forall fuel, (F <= fuel)%nat -> Acyclic_Term_1 sw fuel m0 w = Ret (b, m')) /\
    (forall x, x <> sw -> m' x = m0 x) /\ (b = true <-> exists t, den m0 w t).
Proof.
  intros Ww. assert (Pk : path_ok []) by (split; [constructor|intros c []]).
  destruct (one_run [] [] 0%nat sw w [] (store m0 sw (Word w))) as (m1 & b1 & (N & F & HR) & Mk1 & T1 & F1); auto.
  - split; intros x Nx Ix; [destruct Ix|]. now rewrite store_other.
  - apply store_same.
  - intros c wc t [].
  - intros _ n' Hn'. apply (args_run_all (length D)); auto. cbn. lia.
  - exists (N + F)%nat, b1, m1. split; [|split].
    + intros fuel Hf. unfold Acyclic_Term_1. replace fuel with (N + (fuel - N))%nat by lia.
      rewrite HR by lia. destruct (fuel - N)%nat; reflexivity.
    + intros x Nx. destruct Mk1 as [_ M2]. now apply M2.
    + split; auto. intros [t Dt]. destruct b1; auto. destruct (F1 eq_refl t Dt).
Qed.
End Acyclic.
