(** Proofs for C38, C39: histories. *)
Require Import ZArith List Bool Arith Lia Permutation Sorted.
Require Import Verif.Heap_Model Verif.Gvar_Model Verif.Gvar_Spec Verif.Gvar_Tree Verif.Gvar_Free Verif.Gvar_Build Verif.Gvar_Grow Verif.Gvar_Inv Verif.Gvar_Steps Verif.Gvar_Pops Verif.Gvar_Exec Verif.Gvar_Ops.
Import ListNotations.
Open Scope nat_scope.

(** the value when the records from [m] on are undone *)
Fixpoint avT (m : nat) (t : T) : av :=
  match t with TWord w => AWord w | TCopy _ w => AWord w | TArr _ l d => AArr (avL m l) (valD d) end
with avL (m : nat) (l : Ls) : list av :=
  match l with LNil => [] | LCons t h r => avH m (avT m t) h :: avL m r end
with avH (m : nat) (v : av) (h : Hs) : av :=
  match h with HNil => v | HCons u t r => if m <=? u then avH m (avT m t) r else v end.
Lemma avH_val : forall m v h, (forall u, In u (uidsH h) -> u < m) -> avH m v h = v.
Proof. intros m v [|u t r] B; cbn [avH]; [reflexivity|]. destruct (Nat.leb_spec m u) as [Q|Q]; [|reflexivity]. specialize (B u (or_introl eq_refl)). lia. Qed.
Lemma av_val :
  (forall t m, (forall u, In u (uidsT t) -> u < m) -> avT m t = valT t) /\
  (forall l m, (forall u, In u (uidsL l) -> u < m) -> avL m l = valL l) /\
  (forall h : Hs, True) /\ (forall d : D, True).
Proof.
  apply tree_ind; try (intros; exact I); cbn [avT avL valT valL uidsT uidsL]; try reflexivity.
  - intros b l IHl d _ m B. rewrite IHl; [reflexivity|]. intros u Hu. apply B. apply in_or_app. left. exact Hu.
  - intros t IHt h _ r IHr m B. rewrite avH_val, IHt, IHr; [reflexivity|..]; intros u Hu; apply B; rewrite !in_app_iff; tauto.
Qed.
Lemma avL_updL : forall m l i t h t' h', nthL l i = Some (t, h) -> avH m (avT m t') h' = avH m (avT m t) h -> avL m (updL l i t' h') = avL m l.
Proof.
  intros m l. induction l as [|t0 h0 r IH]; intros [|i] t h t' h' E Q; cbn [nthL updL avL] in *; try discriminate E.
  - injection E as -> ->. rewrite Q. reflexivity.
  - rewrite (IH i t h t' h' E Q). reflexivity.
Qed.
Lemma av_setP : forall m p t L c hs c' hs', getP p t = Some (L, c, hs) -> avH m (avT m c') hs' = avH m (avT m c) hs -> avT m (setP p c' hs' t) = avT m t.
Proof.
  intros m p. induction p as [|i p IH]; intros t L c hs c' hs' E Q; [destruct t; discriminate E|]. destruct t as [w|b w|b l d]; try discriminate E.
  rewrite setP_cons. rewrite getP_cons in E. destruct (nthL l i) as [[t0 h0]|] eqn:EN; [|discriminate E]. cbn [avT]. f_equal. destruct p as [|j p].
  - injection E as _ -> ->. apply (avL_updL m l i c hs); assumption.
  - apply (avL_updL m l i t0 h0); [exact EN|]. rewrite (IH t0 L c hs c' hs' E Q). reflexivity.
Qed.
Lemma popr_av : forall m U t t', popr U t t' -> (forall u, In u U -> m <= u) -> avT m t' = avT m t.
Proof.
  intros m U t t' P B. induction P as [t|t p L c u t1 r t' Hu E P IH]; [reflexivity|]. rewrite IH. apply (av_setP m p t L c _ _ _ E).
  cbn [avH]. destruct (Nat.leb_spec m u) as [Q|Q]; [reflexivity|]. specialize (B u Hu). lia.
Qed.
Lemma popr_root : forall U b c h t', popr U (root b c h) t' -> exists c' h', t' = root b c' h'.
Proof.
  intros U b c h t' P. remember (root b c h) as t eqn:Et. revert c h Et. induction P as [t|t p L k u t1 r t' Hu E P IH]; intros c h ->; [eauto|].
  destruct (setP_root p b c h t1 r L _ _ E) as (c2 & h2 & E2). apply (IH c2 h2). exact E2.
Qed.
Lemma popr_none : forall U t t', popr U t t' -> uidsT t = [] -> t' = t.
Proof.
  intros U t t' P. induction P as [t|t p L k u t1 r t' Hu E P IH]; intros N; [reflexivity|]. exfalso.
  pose proof (ucnt_getP p t L k _ u E) as Q. rewrite N in Q. cbn [uidsH] in Q. rewrite cnt_cons, one_same, cnt_nil in Q. lia.
Qed.

Lemma back_ok : forall k s O, INV s O -> exists s' O' U, Untrail k s = Ret s' /\ info s' = info s /\ nb s' = nb s /\ INV s' O' /\ tr s = U ++ tr s' /\
  length (tr s') = Nat.min (length (tr s)) k /\ forall t, In t O -> exists t', In t' O' /\ popr U t t'.
Proof. intros k s O IN. apply (pops_ok (tr s) k s O IN eq_refl). Qed.

Lemma value_some : forall s O a, INV s O -> exists v, value_of s a = Some v.
Proof. intros s O a IN. destruct (get_var_ok a s O IN) as (b & s1 & c & h & R & _ & _ & _ & _ & Q & _). eauto. Qed.

(** an operation, and its effect on one variable *)
Lemma exec_assign : forall x (bt cp : bool) a p s O, INV s O -> (wf_src x /\ fits bt s a p x) \/ bad_src x ->
  exists s' O', (do r <- G_Assign (elem a p) x bt cp s; match r with AOk s | AErr s => Ret s end) = Ret s' /\ moved a s s' O O' /\
    (tr s' = tr s \/ exists u, nb s <= u /\ tr s' = u :: tr s) /\
    (bt = true -> quiet (elem a p) s -> forall b c h, info s a = Some b -> In (root b c h) O ->
       exists t', In t' O' /\ (t' = root b c h \/
         exists pth L c1 c2 hs u, getP pth (root b c h) = Some (L, c2, hs) /\ t' = setP pth c1 (HCons u c2 hs) (root b c h) /\ nb s <= u)).
Proof.
  intros x bt cp a p s O IN OK. destruct (value_some s O a IN) as (v & EV).
  destruct (assign_ok x bt cp a p s O v IN EV OK) as (res & s' & O' & -> & R1 & R2 & _ & _ & _ & R3 & R4 & _).
  exists s', O'. split; [|auto]. cbn [bind]. rewrite R1. destruct (snd (vwalk p v)); [|reflexivity].
  destruct x as [w|w|op n init|op [|y ys]|]; try reflexivity. destruct (0 <? n)%Z; reflexivity.
Qed.
Lemma exec_read : forall a p s O, INV s O ->
  exists s' O', (do r <- G_Read (elem a p) s; Ret (snd r)) = Ret s' /\ moved a s s' O O' /\ tr s' = tr s /\
    (quiet (elem a p) s -> forall b c h, info s a = Some b -> In (root b c h) O -> In (root b c h) O').
Proof.
  intros a p s O IN. destruct (value_some s O a IN) as (v & EV).
  destruct (read_moved a p s O v IN EV) as (s' & O' & -> & R1 & _ & R2 & _ & R3). exists s', O'. auto.
Qed.

Definition tracked (m : nat) (o : gop) (s s' : gst) (O' : list T) (b : nat) (t : T) : Prop :=
  exists c' h', In (root b c' h') O' /\
    ((exists U, tr s' = U ++ tr s /\ (forall u, In u U -> nb s <= u) /\ avT m (root b c' h') = avT m t) \/
     (exists k U, o = Oback k /\ tr s = U ++ tr s' /\ length (tr s') = Nat.min (length (tr s)) k /\ popr U t (root b c' h'))).
Lemma exec_ok : forall o s O, INV s O -> ok_op s o ->
  exists s' O', exec o s = Ret s' /\ INV s' O' /\ nb s <= nb s' /\
    (forall a b, info s a = Some b -> info s' a = Some b) /\
    (forall a, op_var o <> Some a -> info s' a = info s a) /\
    (forall a b c h, op_var o <> Some a -> info s a = Some b -> In (root b c h) O ->
       match o with Oback _ => exists U t', In t' O' /\ popr U (root b c h) t' | _ => In (root b c h) O' end) /\
    (forall a b c h m, m <= nb s -> undone a s o -> info s a = Some b -> In (root b c h) O -> tracked m o s s' O' b (root b c h)).
Proof.
  intros o s O IN OK.
  assert (INFO : forall a s' O', moved a s s' O O' -> forall a' b, info s a' = Some b -> info s' a' = Some b).
  { intros a s' O' M a' b E. destruct (Z.eq_dec a' a) as [->|N]; [apply (m_own _ _ _ _ _ M); exact E|rewrite (m_info _ _ _ _ _ M a' N); exact E]. }
  assert (KEEP : forall a s' O' a' b c h m, moved a s s' O O' -> (tr s' = tr s \/ exists u, nb s <= u /\ tr s' = u :: tr s) ->
     a' <> a -> info s a' = Some b -> In (root b c h) O -> tracked m (Oread (elem a [])) s s' O' b (root b c h)).
  { intros a s' O' a' b c h m M TR N E Ht. destruct (moved_root a s s' O O' a' b c h IN M N E Ht) as (_ & Q). exists c, h. split; [exact Q|]. left.
    destruct TR as [TR|(u & Lu & TR)]; [exists []; split; [exact TR|]; split; [intros u []|reflexivity]|].
    exists [u]. split; [exact TR|]. split; [intros w [<-|[]]; exact Lu|reflexivity]. }
  assert (RETAG : forall m a p o s' O' b t, (forall k, o <> Oback k) -> tracked m (Oread (elem a p)) s s' O' b t -> tracked m o s s' O' b t).
  { intros m a p o' s' O' b t N (c' & h' & Q1 & [Q2|(k & U & Q2 & _)]); [|discriminate Q2]. exists c', h'. auto. }
  assert (OWN : forall s' O' b c h m t', INV s' O' -> (tr s' = tr s \/ exists u, nb s <= u /\ tr s' = u :: tr s) -> m <= nb s -> In t' O' ->
     (t' = root b c h \/ exists pth L c1 c2 hs u, getP pth (root b c h) = Some (L, c2, hs) /\ t' = setP pth c1 (HCons u c2 hs) (root b c h) /\ nb s <= u) ->
     tracked m (Oread (elem 0 [])) s s' O' b (root b c h)).
  { intros s' O' b c h m t' _ TR LM Ht D.
    assert (TRU : exists U, tr s' = U ++ tr s /\ (forall u, In u U -> nb s <= u)).
    { destruct TR as [TR|(u & Lu & TR)]; [exists []; split; [exact TR|intros u []]|]. exists [u]. split; [exact TR|]. intros w [<-|[]]; exact Lu. }
    destruct TRU as (U & T1 & T2). destruct D as [->|(pth & L & c1 & c2 & hs & u & EG & -> & Lu)].
    - exists c, h. split; [exact Ht|]. left. exists U. auto.
    - destruct (setP_root pth b c h c1 (HCons u c2 hs) L _ _ EG) as (c3 & h3 & E3). unfold root in Ht |- *. rewrite E3 in Ht. exists c3, h3. split; [exact Ht|]. left. exists U. split; [exact T1|]. split; [exact T2|].
      unfold root. rewrite <- E3. apply (av_setP m pth (TArr b (LCons c h LNil) DNone) L c2 hs); [exact EG|]. cbn [avH]. destruct (Nat.leb_spec m u); [reflexivity|lia]. }
  inversion OK as [a p x OX EO|a p x OX EO|a p x OX EO|a p EO|k EO]; subst o.
  - destruct (exec_assign x false true a p s O IN OX) as (s' & O' & E & M & TR & _). exists s', O'. split; [exact E|]. split; [apply M|]. split; [apply M|].
    split; [apply (INFO a s' O' M)|]. split; [intros a' N; apply (m_info _ _ _ _ _ M); cbn in N; congruence|]. split.
    + intros a' b c h N Eb Ht. cbn in N. apply (moved_root a s s' O O' a' b c h IN M); auto; congruence.
    + intros a' b c h m LM UD Eb Ht. cbn in UD. apply (RETAG m a []); [discriminate|]. apply (KEEP a s' O' a'); auto.
  - destruct (exec_assign x true true a p s O IN OX) as (s' & O' & E & M & TR & OW). exists s', O'. split; [exact E|]. split; [apply M|]. split; [apply M|].
    split; [apply (INFO a s' O' M)|]. split; [intros a' N; apply (m_info _ _ _ _ _ M); cbn in N; congruence|]. split.
    + intros a' b c h N Eb Ht. cbn in N. apply (moved_root a s s' O O' a' b c h IN M); auto; congruence.
    + intros a' b c h m LM UD Eb Ht. cbn in UD. destruct (Z.eq_dec a a') as [<-|N].
      * destruct (OW eq_refl (UD eq_refl) b c h Eb Ht) as (t' & Ht' & D). apply (RETAG m 0%Z []); [discriminate|]. apply (OWN s' O' b c h m t'); auto. apply M.
      * apply (RETAG m a []); [discriminate|]. apply (KEEP a s' O' a'); auto.
  - destruct (exec_assign x true false a p s O IN OX) as (s' & O' & E & M & TR & OW). exists s', O'. split; [exact E|]. split; [apply M|]. split; [apply M|].
    split; [apply (INFO a s' O' M)|]. split; [intros a' N; apply (m_info _ _ _ _ _ M); cbn in N; congruence|]. split.
    + intros a' b c h N Eb Ht. cbn in N. apply (moved_root a s s' O O' a' b c h IN M); auto; congruence.
    + intros a' b c h m LM UD Eb Ht. cbn in UD. destruct (Z.eq_dec a a') as [<-|N].
      * destruct (OW eq_refl (UD eq_refl) b c h Eb Ht) as (t' & Ht' & D). apply (RETAG m 0%Z []); [discriminate|]. apply (OWN s' O' b c h m t'); auto. apply M.
      * apply (RETAG m a []); [discriminate|]. apply (KEEP a s' O' a'); auto.
  - destruct (exec_read a p s O IN) as (s' & O' & E & M & TR & OW). exists s', O'. split; [exact E|]. split; [apply M|]. split; [apply M|].
    split; [apply (INFO a s' O' M)|]. split; [intros a' N; apply (m_info _ _ _ _ _ M); cbn in N; congruence|]. split.
    + intros a' b c h N Eb Ht. cbn in N. apply (moved_root a s s' O O' a' b c h IN M); auto; congruence.
    + intros a' b c h m LM UD Eb Ht. cbn in UD. destruct (Z.eq_dec a a') as [<-|N].
      * apply (RETAG m 0%Z []); [discriminate|]. apply (OWN s' O' b c h m (root b c h)); auto. apply M.
      * apply (RETAG m a []); [discriminate|]. apply (KEEP a s' O' a'); auto.
  - destruct (back_ok k s O IN) as (s' & O' & U & E & F1 & F2 & IN' & F3 & F4 & TR). exists s', O'. split; [exact E|]. split; [exact IN'|]. split; [lia|].
    rewrite F1. split; [auto|]. split; [auto|]. split.
    + intros a' b c h _ _ Ht. destruct (TR _ Ht) as (t' & Q1 & Q2). eauto.
    + intros a' b c h m _ _ _ Ht. destruct (TR _ Ht) as (t' & Q1 & Q2). destruct (popr_root U b c h t' Q2) as (c' & h' & ->).
      exists c', h'. split; [exact Q1|]. right. exists k, U. auto.
Qed.

Lemma INV_start : INV start [].
Proof. constructor; cbn; auto; try constructor; try discriminate; try (intros; lia); try (intros x []). Qed.
Lemma history_inv : forall s, history s -> exists O, INV s O.
Proof.
  intros s H. induction H as [|s o s' H IH OK E]; [exists []; exact INV_start|]. destruct IH as (O & IN).
  destruct (exec_ok o s O IN OK) as (s1 & O' & E1 & IN' & _). rewrite E1 in E. injection E as <-. eauto.
Qed.

Lemma app_split : forall {A} (U1 X U B : list A), U1 ++ X = U ++ B -> length B <= length X -> exists U', X = U' ++ B /\ U = U1 ++ U'.
Proof.
  induction U1 as [|x U1 IH]; intros X U B E L; [exists U; auto|]. destruct U as [|y U].
  - exfalso. apply (f_equal (@length A)) in E. cbn [app length] in E. rewrite app_length in E. lia.
  - injection E as -> E. destruct (IH X U B E L) as (U' & -> & ->). exists U'. auto.
Qed.
Lemma between_none : forall a n s s', between a n s s' -> (exists O, INV s O) -> info s a = None -> info s' a = None /\ exists O, INV s' O.
Proof.
  intros a n s s' B. induction B as [s|s s1 o s2 B IH OK UD NB E]; intros HI EA; [auto|]. destruct (IH HI EA) as (E1 & O & IN).
  destruct (exec_ok o s1 O IN OK) as (s3 & O' & E3 & IN' & _ & _ & IF & _). rewrite E3 in E. injection E as <-. split; [|eauto].
  rewrite IF; [exact E1|]. intros Q.
  assert (NQ : forall p, ~ quiet (elem a p) s1).
  { intros p (r & QT). destruct (target_ok a p s1 O IN) as (res & s4 & b & c & h & c' & R & E4 & _ & F1 & _). rewrite E4 in QT. injection QT as _ ->. congruence. }
  inversion OK as [a0 p x OX EO|a0 p x OX EO|a0 p x OX EO|a0 p EO|k EO]; subst o; cbn in Q; try injection Q as ->; cbn in UD; try (apply (NQ p); apply UD; reflexivity); [congruence|discriminate Q].
Qed.
Lemma between_some : forall a s s1 b c h O, between a (length (tr s)) s s1 -> INV s O -> info s a = Some b -> In (root b c h) O ->
  exists O1 c1 h1 U, INV s1 O1 /\ info s1 a = Some b /\ In (root b c1 h1) O1 /\ avT (nb s) (root b c1 h1) = avT (nb s) (root b c h) /\
    nb s <= nb s1 /\ tr s1 = U ++ tr s /\ (forall u, In u U -> nb s <= u).
Proof.
  intros a s s1 b c h O B. remember (length (tr s)) as n eqn:En. induction B as [s|s s1 o s2 B IH OK UD NB E]; intros IN EA Ht.
  - exists O, c, h, []. repeat (split; [auto|]). intros u [].
  - destruct (IH En IN EA Ht) as (O1 & c1 & h1 & U & IN1 & EA1 & Ht1 & AV & LN & TR & LU).
    destruct (exec_ok o s1 O1 IN1 OK) as (s3 & O2 & E3 & IN2 & LN2 & IF & _ & _ & TK). rewrite E3 in E. injection E as ->.
    destruct (TK a b c1 h1 (nb s) LN UD EA1 Ht1) as (c2 & h2 & Ht2 & D). exists O2, c2, h2.
    destruct D as [(V & T1 & T2 & T3)|(k & V & EO & T1 & T2 & T3)].
    + exists (V ++ U). split; [exact IN2|]. split; [apply IF; exact EA1|]. split; [exact Ht2|]. split; [congruence|]. split; [lia|].
      split; [rewrite T1, TR; apply app_assoc|]. intros u Hu. apply in_app_or in Hu. destruct Hu as [Hu|Hu]; [specialize (T2 u Hu); lia|apply LU; exact Hu].
    + specialize (NB k EO). rewrite TR in T1. symmetry in T1. destruct (app_split V (tr s2) U (tr s) T1) as (U' & T4 & ->).
      { rewrite T2, TR, app_length. lia. }
      exists U'. split; [exact IN2|]. split; [apply IF; exact EA1|]. split; [exact Ht2|]. split; [|split; [lia|split; [exact T4|]]].
      * rewrite <- AV. apply (popr_av (nb s) V); [exact T3|]. intros u Hu. apply LU. apply in_or_app. left. exact Hu.
      * intros u Hu. apply LU. apply in_or_app. right. exact Hu.
Qed.
Lemma restored : forall a s s1, history s -> between a (length (tr s)) s s1 ->
  exists s2, exec (Oback (length (tr s))) s1 = Ret s2 /\ tr s2 = tr s /\ value_of s2 a = value_of s a.
Proof.
  intros a s s1 HI B. destruct (history_inv s HI) as (O & IN). destruct (info s a) as [b|] eqn:EA.
  - destruct (i_root _ _ IN a b EA) as (c & h & Ht). destruct (between_some a s s1 b c h O B IN EA Ht) as (O1 & c1 & h1 & U & IN1 & EA1 & Ht1 & AV & LN & TR & LU).
    cbn [exec]. destruct (back_ok (length (tr s)) s1 O1 IN1) as (s2 & O2 & V & E & F1 & F2 & IN2 & F3 & F4 & TK).
    exists s2. split; [exact E|]. assert (ET : tr s2 = tr s).
    { rewrite TR in F3, F4. rewrite app_length in F4. destruct (app_split V (tr s2) U (tr s)) as (U' & Q & _); [auto|lia|].
      assert (length U' = 0) by (apply (f_equal (@length nat)) in Q; rewrite app_length in Q; lia). destruct U'; [exact Q|discriminate]. }
    split; [exact ET|]. destruct (TK _ Ht1) as (t2 & Ht2 & P). destruct (popr_root V b c1 h1 t2 P) as (c2 & h2 & ->).
    rewrite (root_value s O a b c h IN EA Ht). rewrite (root_value s2 O2 a b c2 h2 IN2); [|congruence|exact Ht2]. f_equal.
    assert (VU : forall u, In u V -> nb s <= u).
    { intros u Hu. rewrite TR, ET in F3. apply app_inv_tail in F3. subst V. apply LU. exact Hu. }
    pose proof (popr_av (nb s) V _ _ P VU) as Q. rewrite AV in Q. rewrite (proj1 av_val (root b c h)) in Q.
    + rewrite (proj1 av_val (root b c2 h2)) in Q; [cbn in Q; congruence|]. intros u Hu. pose proof (i_val _ _ IN2 u (allU_in _ _ u Ht2 Hu)) as Q2.
      rewrite ET in Q2. pose proof (i_tlt _ _ IN) as Q3. rewrite Forall_forall in Q3. apply Q3. exact Q2.
    + intros u Hu. pose proof (i_val _ _ IN u (allU_in _ _ u Ht Hu)) as Q2. pose proof (i_tlt _ _ IN) as Q3. rewrite Forall_forall in Q3. apply Q3. exact Q2.
  - destruct (between_none a _ s s1 B (ex_intro _ O IN) EA) as (EA1 & O1 & IN1).
    cbn [exec]. destruct (back_ok (length (tr s)) s1 O1 IN1) as (s2 & O2 & V & E & F1 & F2 & IN2 & F3 & F4 & TK).
    exists s2. split; [exact E|]. split; [|unfold value_of; rewrite F1, EA1, EA; reflexivity].
    assert (TT : exists U, tr s1 = U ++ tr s).
    { clear - B IN. remember (length (tr s)) as n eqn:En. assert (HI : exists O, INV s O) by eauto. clear IN O.
      assert (G : (exists O, INV s1 O) /\ exists U, tr s1 = U ++ tr s); [|apply G].
      induction B as [s|s s1 o s2 B IH OK UD NB E]; [split; [exact HI|exists []; reflexivity]|]. destruct (IH En HI) as ((O & IN) & U & TR).
      inversion OK as [a0 p x OX EO|a0 p x OX EO|a0 p x OX EO|a0 p EO|k EO]; subst o; cbn [exec] in E.
      - destruct (exec_assign x false true a0 p s1 O IN OX) as (s3 & O' & E3 & M & T1 & _). rewrite E3 in E. injection E as ->. split; [exists O'; apply M|].
        destruct T1 as [->|(u & _ & ->)]; [exists U; exact TR|exists (u :: U); rewrite TR; reflexivity].
      - destruct (exec_assign x true true a0 p s1 O IN OX) as (s3 & O' & E3 & M & T1 & _). rewrite E3 in E. injection E as ->. split; [exists O'; apply M|].
        destruct T1 as [->|(u & _ & ->)]; [exists U; exact TR|exists (u :: U); rewrite TR; reflexivity].
      - destruct (exec_assign x true false a0 p s1 O IN OX) as (s3 & O' & E3 & M & T1 & _). rewrite E3 in E. injection E as ->. split; [exists O'; apply M|].
        destruct T1 as [->|(u & _ & ->)]; [exists U; exact TR|exists (u :: U); rewrite TR; reflexivity].
      - destruct (exec_read a0 p s1 O IN) as (s3 & O' & E3 & M & T1 & _). rewrite E3 in E. injection E as ->. split; [exists O'; apply M|]. exists U. congruence.
      - destruct (back_ok k s1 O IN) as (s3 & O' & V & E3 & _ & _ & IN' & T1 & T2 & _). rewrite E3 in E. injection E as ->. split; [eauto|].
        rewrite TR in T1. symmetry in T1. destruct (app_split V (tr s2) U (tr s) T1) as (U' & T4 & _); [|eauto]. specialize (NB k eq_refl). rewrite T2, TR, app_length. lia. }
    destruct TT as (U & TR). rewrite TR in F3, F4. rewrite app_length in F4. destruct (app_split V (tr s2) U (tr s)) as (U' & Q & _); [auto|lia|].
    assert (length U' = 0) by (apply (f_equal (@length nat)) in Q; rewrite app_length in Q; lia). destruct U'; [exact Q|discriminate].
Qed.

Lemma without_root : forall a s s1, without a s s1 -> forall O b c h, INV s O -> info s a = Some b -> In (root b c h) O -> uidsT (root b c h) = [] ->
  exists O1, INV s1 O1 /\ info s1 a = Some b /\ In (root b c h) O1.
Proof.
  intros a s s1 B. induction B as [s|s s1 o s2 B IH OK NV E]; intros O b c h IN EA Ht UN; [eauto|].
  destruct (IH O b c h IN EA Ht UN) as (O1 & IN1 & EA1 & Ht1).
  destruct (exec_ok o s1 O1 IN1 OK) as (s3 & O2 & E3 & IN2 & LN2 & IF & _ & KP & _). rewrite E3 in E. injection E as ->.
  exists O2. split; [exact IN2|]. split; [apply IF; exact EA1|]. specialize (KP a b c h NV EA1 Ht1). destruct o; try exact KP.
  destruct KP as (U & t' & Q1 & Q2). apply popr_none in Q2; [|exact UN]. subst t'. exact Q1.
Qed.
Lemma survives : forall a x s s1 s2, history s -> wf_src x -> src_op x <> Some G_ARRAY_EXTEND ->
  exec (Oassign (elem a []) x) s = Ret s1 -> without a s1 s2 -> value_of s2 a = Some (vsrc x).
Proof.
  intros a x s s1 s2 HI W NE E B. destruct (history_inv s HI) as (O & IN). destruct (value_some s O a IN) as (v & EV).
  assert (VX : vassign false x v = vsrc x).
  { destruct x as [w|w|op n init|op l|], v as [w'|l' d']; try reflexivity; try destruct W; destruct op; try reflexivity; exfalso; apply NE; reflexivity. }
  destruct (assign_ok x false true a [] s O v IN EV) as (res & s' & O' & E1 & R1 & R2 & R3 & _ & _ & _ & _ & R4).
  { left. split; [exact W|]. intros v0 q w _ _ _. unfold size_ok. destruct w; [exact I|]. destruct (src_op x) as [op|]; [|exact I].
    intros [Q|Q]; [discriminate Q|exfalso; apply NE; rewrite Q; reflexivity]. }
  assert (s' = s1) as ->.
  { cbn [exec] in E. rewrite E1 in E. cbn [bind] in E. rewrite R1 in E. cbn [vwalk snd] in E.
    destruct x as [w|w|op n init|op [|y ys]|]; try (injection E as E; exact E). destruct (0 <? n)%Z; injection E as E; exact E. }
  destruct (R4 eq_refl eq_refl W NE) as (b & c & h & EA & Ht & UN).
  destruct (without_root a s1 s2 B O' b c h (m_inv _ _ _ _ _ R2) EA Ht UN) as (O2 & IN2 & EA2 & Ht2).
  rewrite (root_value s2 O2 a b c h IN2 EA2 Ht2). rewrite <- (root_value s1 O' a b c h (m_inv _ _ _ _ _ R2) EA Ht).
  rewrite (R3 W). unfold vresult. cbn [vwalk vget vset]. rewrite VX. reflexivity.
Qed.
