(** Proofs for C38, C39: copies and assignments. *)
Require Import ZArith List Bool Arith Lia.
Require Import Verif.Heap_Model Verif.Gvar_Model Verif.Gvar_Spec Verif.Gvar_Tree Verif.Gvar_Free.
Import ListNotations.
Open Scope nat_scope.

Lemma fresh_word : forall s L e0 w uo, cell (hp s) L = Some e0 ->
  exists s', wr L (Elt (CLink w) uo) s = Ret s' /\ fresh s s' L uo (TWord w) (AWord w).
Proof.
  intros s L e0 w uo C. destruct (wr_ok L (Elt (CLink w) uo) s e0 C) as (h' & -> & UC & HB). eexists. split; [reflexivity|].
  constructor; cbn; auto; try (intros x []); try lia. constructor; cbn; auto.
Qed.
Lemma fresh_term : forall s L e0 w uo, cell (hp s) L = Some e0 -> fst L < nb s ->
  exists s', wr L (Elt (CCopy (nb s)) uo) (snd (malloc (BTerm w) s)) = Ret s' /\ fresh s s' L uo (TCopy (nb s) w) (AWord w).
Proof.
  intros s L e0 w uo C LL. set (s1 := snd (malloc (BTerm w) s)).
  assert (E1 : forall x, x < nb s -> hp s1 x = hp s x) by (intros x Lx; apply upd_other; lia).
  assert (C1 : cell (hp s1) L = Some e0) by (unfold cell; rewrite E1 by exact LL; exact C).
  destruct (wr_ok L (Elt (CCopy (nb s)) uo) s1 e0 C1) as (h' & -> & UC & HB). eexists. split; [reflexivity|].
  constructor; cbn [hp un nb info tr set_hp hT uidsT ordT valT idsT cof]; auto.
  - constructor; cbn; auto. intros x Lx Nx. rewrite HB by exact Nx. apply E1. exact Lx.
  - rewrite HB by lia. apply upd_same.
  - intros x [<-|[]]. cbn. lia.
  - intros x. rewrite cnt_cons, cnt_nil. unfold one. destruct (x =? nb s); lia.
  - apply (updcell_eq (hp s1) h'); [exact UC|symmetry; apply E1; exact LL|reflexivity].
Qed.

Definition copy_spec (t : T) : Prop := forall fuel s dst src u e0 lo hi,
  depT t < fuel -> cell (hp s) src = Some (Elt (cof t) u) -> hT (hp s) (un s) t -> ordT lo hi t ->
  cell (hp s) dst = Some e0 -> ~ In (fst dst) (idsT t) -> fst dst < nb s -> (forall x, In x (idsT t) -> x < nb s) ->
  exists s' t', copy_element fuel dst src s = Ret s' /\ fresh s s' dst None t' (valT t).
Definition copy_specL (l : Ls) : Prop := forall f s0 s L B b n l0 d b0 lo hi,
  (forall s', nb s <= nb s' -> depL l < f s') -> prog s0 s L B b n l0 d -> fst L < nb s0 -> lenL l0 + lenL l <= n ->
  b0 <> b -> b0 < nb s ->
  hL (hp s) (un s) b0 (lenL l0) l -> ordL lo hi l -> ~ In b (idsL l) -> (forall x, In x (idsL l) -> x < nb s) ->
  exists s' l', loop (fun i s => copy_element (f s) (b, i) (b0, i) s) (lenL l) (lenL l0) s = Ret s' /\
    prog s0 s' L B b n (catL l0 l') d /\ valL l' = valL l /\ ext s s' b.
Definition copy_specD (d : D) : Prop := match d with DSome t => copy_spec t | _ => True end.

Lemma prog_cell : forall s0 s L B b n l d i, prog s0 s L B b n l d -> i <= n -> exists e0, cell (hp s) (b, i) = Some e0.
Proof.
  intros s0 s L B b n l d i P Li. destruct (p_els _ _ _ _ _ _ _ _ P) as (els & E & LE). unfold cell. cbn [fst snd]. rewrite E.
  destruct (nth_error els i) eqn:Q; [eauto|]. apply nth_error_None in Q. lia.
Qed.

Lemma copy_all : (forall t, copy_spec t) /\ (forall l, copy_specL l) /\ (forall h : Hs, True) /\ (forall d, copy_specD d).
Proof.
  apply tree_ind; try (intros; exact I).
  - intros w fuel s dst src u e0 lo hi F C _ _ Cd _ _ _. destruct fuel as [|fuel]; [lia|]. cbn [copy_element cof] in *.
    rewrite (rd_ok _ _ _ C) by discriminate. cbn [bind e_c]. destruct (fresh_word s dst e0 w None Cd) as (s' & E & Fr). exists s', (TWord w). auto.
  - intros b w fuel s dst src u e0 lo hi F C Ht _ Cd NB LL BB. destruct fuel as [|fuel]; [lia|]. cbn [copy_element cof hT] in *.
    rewrite (rd_ok _ _ _ C) by discriminate. cbn [bind e_c]. unfold rd_term. rewrite Ht. cbn [bind].
    destruct (fresh_term s dst e0 w None Cd LL) as (s' & E & Fr). exists s', (TCopy (nb s) w). auto.
  - intros b l IHl d IHd fuel s dst src u e0 lo hi F C Ht (OL & OD) Cd NB LL BB. destruct fuel as [|fuel]; [lia|]. cbn [copy_element].
    cbn [depT] in F. rewrite (rd_ok _ _ _ C) by discriminate. cbn [bind e_c cof].
    destruct Ht as ((els & EB & LE) & HL & HD). cbn [idsT] in *.
    pose proof (prog_start s dst (lenL l) LL) as P. destruct (malloc (BArr (repeat junk (S (lenL l)))) s) as [b' s1] eqn:EM.
    assert (b' = nb s) by (unfold malloc in EM; congruence). subst b'. cbn [snd] in P.
    pose proof (p_x _ _ _ _ _ _ _ _ P) as X1. pose proof (p_L _ _ _ _ _ _ _ _ P) as PL1.
    assert (C1 : cell (hp s1) dst = Some e0) by (unfold cell; rewrite PL1; exact Cd).
    destruct (wr_ok dst (Elt (CArr (lenL l) (nb s)) None) s1 e0 C1) as (h2 & E2 & UC2 & HB2).
    rewrite E2. cbn [bind]. set (s2 := set_hp s1 h2) in *.
    pose proof (prog_L _ _ _ _ _ _ _ _ _ _ P LL E2) as P2.
    assert (Bb : b < nb s) by (apply BB; left; reflexivity).
    assert (NE : b <> fst dst) by (intros Q; apply NB; left; exact Q).
    assert (X2 := p_x _ _ _ _ _ _ _ _ P2). pose proof (p_b _ _ _ _ _ _ _ _ P2) as PB.
    assert (I2 : forall x, In x (idsL l ++ idsD d) -> hp s2 x = hp s x).
    { intros x Hx. apply (x_hp _ _ _ X2); [apply BB; right; exact Hx|]. intros ->. apply NB. right. exact Hx. }
    assert (K2 : forall j, cell (hp s2) (b, j) = cell (hp s) (b, j)).
    { intros j. unfold cell. cbn [fst]. rewrite (x_hp _ _ _ X2) by assumption. reflexivity. }
    destruct (IHl (fun _ => fuel) s s2 dst (hp s2 (fst dst)) (nb s) (lenL l) LNil DNone b lo hi) as (s3 & l' & E3 & P3 & V3 & X3); try assumption.
    { intros _ _. lia. }
    { cbn. lia. }
    { lia. }
    { pose proof (x_nb _ _ _ X2). lia. }
    { apply (frameL l (hp s) (un s)); [intros x Hx; apply I2; apply in_or_app; auto|intros; apply X2|intros j _; apply K2|exact HL]. }
    { intros Q. assert (nb s < nb s) by (apply BB; right; apply in_or_app; auto). lia. }
    { intros x Hx. assert (x < nb s) by (apply BB; right; apply in_or_app; auto). pose proof (x_nb _ _ _ X2). lia. }
    change (loop (fun i => copy_element fuel (nb s, i) (b, i)) (lenL l) 0 s2 = Ret s3) in E3. rewrite E3. cbn [bind catL] in *.
    assert (LE3 : lenL l' = lenL l) by (rewrite <- !valL_len, V3; reflexivity).
    assert (K3 : forall j, cell (hp s3) (b, j) = cell (hp s) (b, j)).
    { intros j. rewrite <- K2. unfold cell. cbn [fst]. rewrite (x_hp _ _ _ X3); [reflexivity|pose proof (x_nb _ _ _ X2); lia|lia]. }
    assert (U3 : forall s4 h4, hp s4 (fst dst) = hp s3 (fst dst) -> h4 = hp s4 -> updcell (hp s) h4 dst (Elt (CArr (lenL l) (nb s)) None)).
    { intros s4 h4 Q ->. apply (updcell_eq (hp s1) h2); [exact UC2|symmetry; exact PL1|].
      rewrite Q. rewrite (p_L _ _ _ _ _ _ _ _ P3). reflexivity. }
    destruct d as [| |t]; [destruct OD| |].
    + cbn [hD] in HD. rewrite <- K3 in HD. rewrite (rd_ok _ _ _ HD) by discriminate. cbn [bind e_c].
      destruct (prog_end _ _ _ _ _ _ _ P3 LL) as (s4 & E4 & P4). exists s4, (TArr (nb s) l' DEnd). split; [exact E4|].
      cbn [valT valD]. rewrite <- V3. apply (prog_done _ _ _ _ _ (lenL l) _ _ _ P4); [exact LE3|discriminate|].
      apply (U3 s4); [|reflexivity]. rewrite (p_L _ _ _ _ _ _ _ _ P4). symmetry. apply (p_L _ _ _ _ _ _ _ _ P3).
    + cbn [hD] in HD. destruct HD as (HD & Ht). rewrite <- K3 in HD. rewrite (rd_ok _ _ _ HD) by apply cof_junk. cbn [bind e_c].
      destruct OD as (UT & OT). cbn [idsD depD] in *. pose proof (x_nb _ _ _ X2). pose proof (x_nb _ _ _ X3).
      destruct (prog_cell _ _ _ _ _ _ _ _ (lenL l) P3) as (e3 & C3); [lia|].
      destruct (IHd fuel s3 (nb s, lenL l) (b, lenL l) None e3 lo hi) as (s4 & t' & E4 & F4); try assumption.
      { lia. }
      { apply (frameT t (hp s) (un s)); [| |exact Ht].
        - intros x Hx. rewrite (x_hp _ _ _ X3); [apply I2; apply in_or_app; auto| |].
          + assert (x < nb s) by (apply BB; right; apply in_or_app; auto). lia.
          + intros ->. assert (nb s < nb s) by (apply BB; right; apply in_or_app; auto). lia.
        - rewrite UT. intros x []. }
      { cbn [fst]. intros Q. assert (nb s < nb s) by (apply BB; right; apply in_or_app; auto). lia. }
      { cbn [fst]. lia. }
      { intros x Hx. assert (x < nb s) by (apply BB; right; apply in_or_app; auto). lia. }
      exists s4, (TArr (nb s) l' (DSome t')). split.
      { destruct (cof t) eqn:Q; try exact E4. destruct (cof_end t Q). }
      pose proof (prog_sent _ _ _ _ _ _ _ _ _ _ _ P3 LL F4) as P4.
      cbn [valT valD]. rewrite <- V3, <- (f_v _ _ _ _ _ _ F4). apply (prog_done _ _ _ _ _ (lenL l) _ _ _ P4); [exact LE3|discriminate|].
      apply (U3 s4); [|reflexivity]. rewrite (p_L _ _ _ _ _ _ _ _ P4). symmetry. apply (p_L _ _ _ _ _ _ _ _ P3).
  - intros f s0 s L B b n l0 d b0 lo hi F P LL Ln NE Lb0 _ _ _ _. exists s, LNil. rewrite catL_nil. split; [reflexivity|]. split; [exact P|]. split; [reflexivity|apply ext_refl].
  - intros t IHt hs _ r IHr f s0 s L B b n l0 d b0 lo hi F P LL Ln NE Lb0 (C & Ht & Hh & Hr) (Ot & Oh & Or) NB BB.
    cbn [idsL lenL depL loop] in *. destruct (prog_cell _ _ _ _ _ _ _ _ (lenL l0) P) as (e0 & C0); [lia|].
    pose proof (p_b _ _ _ _ _ _ _ _ P) as PB.
    destruct (IHt (f s) s (b, lenL l0) (b0, lenL l0) (hdu hs) e0 (loH lo hs) hi) as (s1 & t1 & E1 & F1); try assumption.
    { specialize (F s). lia. }
    { cbn [fst]. intros Q. apply NB. apply in_or_app. auto. }
    { cbn [fst]. lia. }
    { intros x Hx. apply BB. apply in_or_app. auto. }
    rewrite E1. cbn [bind]. pose proof (f_x _ _ _ _ _ _ F1) as X1. cbn [fst] in X1. pose proof (x_nb _ _ _ X1).
    assert (P1 : prog s0 s1 L B b n (catL l0 (LCons t1 HNil LNil)) d) by (apply (prog_put s0 s s1 L B b n l0 d t1 (valT t)); [exact P|exact LL|lia|exact F1]).
    assert (E' : lenL (catL l0 (LCons t1 HNil LNil)) = S (lenL l0)) by (rewrite catL_len; cbn; lia).
    destruct (IHr f s0 s1 L B b n _ d b0 lo hi (fun s' Q => ltac:(specialize (F s'); lia)) P1 LL) as (s2 & l' & E2 & P2 & V2 & X2); try assumption.
    { lia. }
    { lia. }
    { rewrite E'. apply (frameL r (hp s) (un s)); [| | |exact Hr].
      - intros x Hx. apply (x_hp _ _ _ X1); [apply BB; rewrite !in_app_iff; auto|]. intros ->. apply NB. rewrite !in_app_iff. auto.
      - intros; apply X1.
      - intros j _. unfold cell. cbn [fst]. rewrite (x_hp _ _ _ X1) by assumption. reflexivity. }
    { intros Q. apply NB. rewrite !in_app_iff. auto. }
    { intros x Hx. assert (x < nb s) by (apply BB; rewrite !in_app_iff; auto). lia. }
    rewrite E' in E2. exists s2, (LCons t1 HNil l'). split; [exact E2|]. split; [rewrite catL_assoc in P2; exact P2|].
    split; [cbn [valL]; rewrite V2, (f_v _ _ _ _ _ _ F1); reflexivity|]. apply (ext_trans s s1); assumption.
  - intros t IHt. exact IHt.
Qed.

(** * Sources *)
Section Gsrc_ind.
Variable P : gsrc -> Prop.
Hypothesis HC : forall w, P (SConst w).
Hypothesis HT : forall w, P (STerm w).
Hypothesis HN : forall op n init, P init -> P (SArrN op n init).
Hypothesis HL : forall op l, Forall P l -> P (SArrL op l).
Hypothesis HB : P SBad.
Fixpoint gsrc_ind' (x : gsrc) : P x :=
  match x with
  | SConst w => HC w
  | STerm w => HT w
  | SArrN op n init => HN op n init (gsrc_ind' init)
  | SArrL op l => HL op l ((fix go (l : list gsrc) : Forall P l :=
      match l with [] => Forall_nil P | y :: r => Forall_cons y (gsrc_ind' y) (go r) end) l)
  | SBad => HB
  end.
End Gsrc_ind.

(** ** The memory of an array *)
Lemma alloc_fresh : forall s L n bt c uo, cell (hp s) L = Some (Elt c uo) -> c <> CJunk -> (forall m b, c <> CArr m b) -> fst L < nb s ->
  exists s' b, G_Alloc_Array L n bt s = Ret (b, s') /\ prog s s' L (hp s' (fst L)) b n LNil DEnd /\
    updcell (hp s) (hp s') L (Elt (CArr n b) uo).
Proof.
  intros s L n bt c uo C NJ NA LL. unfold G_Alloc_Array. rewrite (rd_ok _ _ _ C NJ). cbn [bind e_c].
  assert (forall (A : Type) (f : nat -> nat -> A) (y : A), match c with CArr m b => f m b | _ => y end = y) as -> by
    (intros; destruct c; try reflexivity; destruct (NA _ _ eq_refl)).
  pose proof (prog_start s L n LL) as P. destruct (malloc (BArr (repeat junk (S n))) s) as [b s1] eqn:EM.
  assert (b = nb s) by (unfold malloc in EM; congruence). subst b. cbn [snd] in P.
  destruct (prog_end _ _ _ _ _ _ _ P LL) as (s2 & -> & P2). cbn [bind].
  pose proof (p_L _ _ _ _ _ _ _ _ P2) as PL2.
  assert (C2 : cell (hp s2) L = Some (Elt c uo)) by (unfold cell; rewrite PL2; exact C).
  unfold wr_c. rewrite (rd_ok _ _ _ C2 NJ). cbn [bind e_u].
  destruct (wr_ok L (Elt (CArr n (nb s)) uo) s2 _ C2) as (h' & E & UC & HB). rewrite E. cbn [bind].
  eexists. exists (nb s). split; [reflexivity|]. split; [apply (prog_L _ _ _ _ _ _ _ _ _ _ P2 LL E)|].
  apply (updcell_eq (hp s2) h'); [exact UC|symmetry; exact PL2|reflexivity].
Qed.
Lemma alloc_copy : forall s L n b0 l0 d0 uo lo hi, cell (hp s) L = Some (Elt (CArr (lenL l0) b0) uo) ->
  hT (hp s) (un s) (TArr b0 l0 d0) -> ordT lo hi (TArr b0 l0 d0) -> fst L < nb s -> (forall x, In x (idsT (TArr b0 l0 d0)) -> x < nb s) ->
  (forall x, cnt x (idsT (TArr b0 l0 d0)) <= 1) -> lenL l0 <= n ->
  exists s' b l d, G_Alloc_Array L n true s = Ret (b, s') /\ prog s s' L (hp s' (fst L)) b n l d /\
    valL l = valL l0 /\ valD d = valD d0 /\ d <> DNone /\ updcell (hp s) (hp s') L (Elt (CArr n b) uo).
Proof.
  intros s L n b0 l0 d0 uo lo hi C Ht (OL & OD) LL BB ND Ln. unfold G_Alloc_Array. rewrite (rd_ok _ _ _ C) by discriminate. cbn [bind e_c].
  pose proof (dep_nb _ _ ND BB) as DN. cbn [depT] in DN.
  destruct Ht as ((els & EB & LE) & HL & HD). cbn [idsT] in *.
  pose proof (prog_start s L n LL) as P. destruct (malloc (BArr (repeat junk (S n))) s) as [b s1] eqn:EM.
  assert (b = nb s) by (unfold malloc in EM; congruence). subst b. cbn [snd] in P.
  pose proof (p_b _ _ _ _ _ _ _ _ P) as PB.
  assert (Bb : b0 < nb s) by (apply BB; left; reflexivity).
  assert (H1 : forall x, x < nb s -> hp s1 x = hp s x) by (intros x Lx; unfold malloc in EM; injection EM as <-; apply upd_other; lia).
  assert (U1 : forall u, un s1 u = un s u) by (apply (p_x _ _ _ _ _ _ _ _ P)).
  assert (I1 : forall x, In x (idsL l0 ++ idsD d0) -> hp s1 x = hp s x) by (intros x Hx; apply H1; apply BB; right; exact Hx).
  assert (K1 : forall j, cell (hp s1) (b0, j) = cell (hp s) (b0, j)) by (intros j; unfold cell; cbn [fst]; rewrite H1 by exact Bb; reflexivity).
  destruct (proj1 (proj2 copy_all) l0 (fun s => S (nb s)) s s1 L (hp s (fst L)) (nb s) n LNil DNone b0 lo hi) as (s2 & l & E2 & P2 & V2 & X2); try assumption.
  { intros s' Ls'. lia. }
  { lia. }
  { lia. }
  { apply (frameL l0 (hp s) (un s)); [intros x Hx; apply I1; apply in_or_app; auto|intros; apply U1|intros j _; apply K1|exact HL]. }
  { intros Q. assert (nb s < nb s) by (apply BB; right; apply in_or_app; auto). lia. }
  { intros x Hx. assert (x < nb s) by (apply BB; right; apply in_or_app; auto). lia. }
  change (loop (fun i => G_Copy_Element (nb s, i) (b0, i)) (lenL l0) 0 s1 = Ret s2) in E2. rewrite E2. cbn [bind catL] in *.
  assert (LE2 : lenL l = lenL l0) by (rewrite <- !valL_len, V2; reflexivity).
  pose proof (x_nb _ _ _ X2) as N2.
  assert (K2 : forall j, cell (hp s2) (b0, j) = cell (hp s) (b0, j)).
  { intros j. rewrite <- K1. unfold cell. cbn [fst]. rewrite (x_hp _ _ _ X2) by lia. reflexivity. }
  assert (FIN : forall s3 d, prog s s3 L (hp s (fst L)) (nb s) n l d -> valD d = valD d0 -> d <> DNone ->
    exists s' l1 d1, wr_c L (CArr n (nb s)) s3 = Ret s' /\ prog s s' L (hp s' (fst L)) (nb s) n l1 d1 /\
    valL l1 = valL l0 /\ valD d1 = valD d0 /\ d1 <> DNone /\ updcell (hp s) (hp s') L (Elt (CArr n (nb s)) uo)).
  { intros s3 d P3 VD ND3. pose proof (p_L _ _ _ _ _ _ _ _ P3) as PL3.
    assert (C3 : cell (hp s3) L = Some (Elt (CArr (lenL l0) b0) uo)) by (unfold cell; rewrite PL3; exact C).
    unfold wr_c. rewrite (rd_ok _ _ _ C3) by discriminate. cbn [bind e_u].
    destruct (wr_ok L (Elt (CArr n (nb s)) uo) s3 _ C3) as (h' & E & UC & HB). rewrite E.
    eexists. exists l, d. split; [reflexivity|]. split; [apply (prog_L _ _ _ _ _ _ _ _ _ _ P3 LL E)|].
    split; [exact V2|]. split; [exact VD|]. split; [exact ND3|].
    apply (updcell_eq (hp s3) h'); [exact UC|symmetry; exact PL3|reflexivity]. }
  destruct d0 as [| |t]; [destruct OD| |].
  - cbn [hD] in HD. rewrite <- K2 in HD. rewrite (rd_ok _ _ _ HD) by discriminate. cbn [bind e_c].
    destruct (prog_end _ _ _ _ _ _ _ P2 LL) as (s3 & -> & P3). cbn [bind].
    destruct (FIN s3 DEnd P3) as (s' & l1 & d1 & -> & K); [reflexivity|discriminate|]. cbn [bind]. exists s', (nb s), l1, d1. split; [reflexivity|exact K].
  - cbn [hD] in HD. destruct HD as (HD & Ht). rewrite <- K2 in HD. rewrite (rd_ok _ _ _ HD) by apply cof_junk. cbn [bind e_c].
    destruct OD as (UT & OT). cbn [idsD depD] in *.
    destruct (prog_cell _ _ _ _ _ _ _ _ n P2) as (e3 & C3); [lia|].
    destruct (proj1 copy_all t (S (nb s2)) s2 (nb s, n) (b0, lenL l0) None e3 lo hi) as (s3 & t' & E3 & F3); try assumption.
    { lia. }
    { apply (frameT t (hp s) (un s)); [| |exact Ht].
      - intros x Hx. assert (x < nb s) by (apply BB; right; apply in_or_app; auto). rewrite (x_hp _ _ _ X2) by lia.
        apply I1. apply in_or_app. auto.
      - rewrite UT. intros x []. }
    { cbn [fst]. intros Q. assert (nb s < nb s) by (apply BB; right; apply in_or_app; auto). lia. }
    { cbn [fst]. lia. }
    { intros x Hx. assert (x < nb s) by (apply BB; right; apply in_or_app; auto). lia. }
    assert (match cof t with CEnd => wr (nb s, n) {| e_c := cof t; e_u := None |} s2 | _ => G_Copy_Element (nb s, n) (b0, lenL l0) s2 end = Ret s3) as ->.
    { unfold G_Copy_Element. rewrite E3. destruct (cof t) eqn:Q; try reflexivity. destruct (cof_end t Q). }
    cbn [bind]. pose proof (prog_sent _ _ _ _ _ _ _ _ _ _ _ P2 LL F3) as P3.
    destruct (FIN s3 (DSome t') P3) as (s' & l1 & d1 & -> & K); [cbn [valD]; rewrite (f_v _ _ _ _ _ _ F3); reflexivity|discriminate|].
    cbn [bind]. exists s', (nb s), l1, d1. split; [reflexivity|exact K].
Qed.

(** ** The elements *)
Definition buildable (x : gsrc) : Prop := forall cp s L e0, cell (hp s) L = Some e0 -> fst L < nb s ->
  exists s' t', (do s <- init_cell L s; G_Assign_Element x L false cp s) = Ret (AOk s') /\ fresh s s' L None t' (vsrc x).
Definition filler (x : gsrc) (b : nat) (cp : bool) (i : nat) (s : gst) : outcome ares :=
  do s <- init_cell (b, i) s; G_Assign_Element x (b, i) false cp s.
(** what the loops which give the next elements of a block [b] keep *)
Definition grows (I : gst -> Ls -> Prop) (b n : nat) : Prop :=
  (forall s l, I s l -> b < nb s /\ forall i, i <= n -> exists e, cell (hp s) (b, i) = Some e) /\
  (forall s s' l t v, I s l -> lenL l < n -> fresh s s' (b, lenL l) None t v -> I s' (catL l (LCons t HNil LNil))).
Lemma prog_grows : forall s0 L B b n d, fst L < nb s0 -> grows (fun s l => prog s0 s L B b n l d) b n.
Proof.
  intros s0 L B b n d LL. split.
  - intros s l P. pose proof (p_b _ _ _ _ _ _ _ _ P). split; [lia|]. intros i Li. apply (prog_cell _ _ _ _ _ _ _ _ i P Li).
  - intros s s' l t v P Ln F. apply (prog_put s0 s s' L B b n l d t v); assumption.
Qed.
Lemma fill_ok : forall x cp I b n, buildable x -> grows I b n -> forall k s l, I s l -> lenL l + k <= n ->
  exists s' l', aloop (filler x b cp) k (lenL l) s = Ret (AOk s') /\ I s' (catL l l') /\ valL l' = repeat (vsrc x) k.
Proof.
  intros x cp I b n BX (G1 & G2). induction k as [|k IH]; intros s l P Ln.
  - exists s, LNil. rewrite catL_nil. auto.
  - cbn [aloop]. destruct (G1 s l P) as (PB & PC). destruct (PC (lenL l)) as (e0 & C0); [lia|].
    destruct (BX cp s (b, lenL l) e0 C0) as (s1 & t1 & E1 & F1); [exact PB|]. unfold filler at 1. rewrite E1. cbn [abind].
    assert (P1 : I s1 (catL l (LCons t1 HNil LNil))) by (apply (G2 s s1 l t1 (vsrc x)); [exact P|lia|exact F1]).
    assert (E' : lenL (catL l (LCons t1 HNil LNil)) = S (lenL l)) by (rewrite catL_len; cbn; lia).
    destruct (IH s1 _ P1) as (s2 & l' & E2 & P2 & V2); [lia|]. rewrite E' in E2. rewrite E2.
    exists s2, (LCons t1 HNil l'). split; [reflexivity|]. split; [rewrite catL_assoc in P2; exact P2|].
    cbn [valL repeat]. rewrite V2, (f_v _ _ _ _ _ _ F1). reflexivity.
Qed.
Definition list_filler (b i0 : nat) (cp : bool) : list gsrc -> nat -> gst -> outcome ares :=
  fix fill_list (l : list gsrc) (i : nat) (s : gst) {struct l} : outcome ares :=
    match l with
    | [] => Ret (AOk s)
    | y :: r =>
      if i <? i0 then fill_list r (S i) s
      else do s <- init_cell (b, i) s;
           abind (G_Assign_Element y (b, i) false cp s) (fill_list r (S i))
    end.
Lemma fill_list_ok : forall i0 cp I b n ys, Forall buildable ys -> grows I b n -> forall i s l, I s l ->
  lenL l = Nat.max i i0 -> i + length ys <= n ->
  exists s' l', list_filler b i0 cp ys i s = Ret (AOk s') /\ I s' (catL l l') /\ valL l' = map vsrc (skipn (i0 - i) ys).
Proof.
  intros i0 cp I b n ys BY (G1 & G2). induction BY as [|y ys Hy BY IH]; intros i s l P El Ln; cbn [length] in Ln.
  - exists s, LNil. rewrite catL_nil, skipn_nil. auto.
  - cbn [list_filler]. fold (list_filler b i0 cp). destruct (Nat.ltb_spec i i0) as [Q|Q].
    + destruct (IH (S i) s l P) as (s' & l' & E & P' & V'); [lia|lia|]. exists s', l'. split; [exact E|]. split; [exact P'|].
      replace (i0 - i) with (S (i0 - S i)) by lia. exact V'.
    + assert (El' : lenL l = i) by lia. destruct (G1 s l P) as (PB & PC). destruct (PC i) as (e0 & C0); [lia|].
      destruct (Hy cp s (b, i) e0 C0) as (s1 & t1 & E1 & F1); [exact PB|].
      assert (P1 : I s1 (catL l (LCons t1 HNil LNil))) by (rewrite <- El' in F1; apply (G2 s s1 l t1 (vsrc y)); [exact P|lia|exact F1]).
      destruct (init_cell (b, i) s) as [s1'| |]; cbn [bind] in *; try discriminate E1. rewrite E1. cbn [abind].
      destruct (IH (S i) s1 _ P1) as (s2 & l' & E2 & P2 & V2); [rewrite catL_len; cbn [lenL]; lia|lia|]. rewrite E2.
      exists s2, (LCons t1 HNil l'). split; [reflexivity|]. split; [rewrite catL_assoc in P2; exact P2|].
      replace (i0 - i) with 0 by lia. replace (i0 - S i) with 0 in V2 by lia. cbn [valL skipn map] in *. rewrite V2, (f_v _ _ _ _ _ _ F1). reflexivity.
Qed.

(** * Assignments which are not undone *)
Record at_loc (s : gst) (L : loc) (c : T) (hs : Hs) (lo : nat) : Prop := {
  a_cell : cell (hp s) L = Some (Elt (cof c) (hdu hs));
  a_T : hT (hp s) (un s) c;
  a_H : hH (hp s) (un s) L None hs;
  a_o : ordT lo (nb s) c;
  a_oh : ordH lo (nb s) hs;
  a_L : ~ In (fst L) (idsT c);
  a_c : forall x, cnt x (idsT c) <= 1;
  a_u : forall x, cnt x (uidsT c) + cnt x (uidsH hs) <= 1;
  a_b : forall x, In x (idsT c) -> x < nb s;
  a_lt : fst L < nb s }.
(** the old value is freed, then the new one is made *)
Definition assigned (s s' : gst) (L : loc) (c : T) (hs : Hs) (v : av) : Prop :=
  exists s1 c1 t', freed true s s1 (idsC c) (uH hs ++ uidsC c) /\
    (forall b, ~ In b (idsC c) -> b <> fst L -> hp s1 b = hp s b) /\
    updcell (hp s) (hp s1) L (Elt c1 None) /\ fresh s1 s' L None t' v.
Definition is_arr (c : T) : bool := match c with TArr _ _ _ => true | _ => false end.
Definition extends (x : gsrc) (c : T) : bool :=
  match src_op x with Some G_ARRAY_EXTEND => is_arr c | _ => false end.
Definition assignable (x : gsrc) : Prop := forall cp s L c hs lo, at_loc s L c hs lo -> extends x c = false ->
  exists s', G_Assign_Element x L false cp s = Ret (AOk s') /\ assigned s s' L c hs (vsrc x).

Lemma assignable_buildable : forall x, assignable x -> buildable x.
Proof.
  intros x A cp s L e0 C LL. unfold init_cell. destruct (wr_ok L (Elt initial None) s e0 C) as (h1 & E1 & UC1 & HB1). rewrite E1. cbn [bind].
  set (s1 := set_hp s h1). destruct (A cp s1 L (TWord (GInt 0)) HNil 0) as (s' & E & (s2 & c2 & t' & FR & HB2 & UC2 & FRESH)).
  - constructor; cbn; auto; try lia; try (intros x0 []). exact (updcell_cell _ _ _ _ UC1).
  - unfold extends. destruct (src_op x) as [[]|]; reflexivity.
  - rewrite E. exists s', t'. split; [reflexivity|]. cbn [idsC uH uidsC app] in *. destruct FR as [FS _ _ FU]. destruct FS as [N2 I2 R2].
    destruct FRESH as [FX FH FU' FO FV FI FC FL]. destruct FX as [X1 X2 X3 X4 X5]. cbn in N2, I2, R2.
    constructor; auto.
    + constructor; [|congruence|congruence|lia|].
      * intros u. rewrite X1, FU by (right; intros []). reflexivity.
      * intros y Ly Ny. rewrite X5 by lia. rewrite HB2 by (auto || exact Ny). apply HB1. exact Ny.
    + intros y Hy. specialize (FI y Hy). lia.
    + apply (updcell_trans (hp s) (hp s1) _ L (Elt initial None)); [exact UC1|]. apply (updcell_trans _ (hp s2) _ L (Elt c2 None)); assumption.
Qed.

Lemma plain_ok : forall (w : gword) (link : bool) s L c hs lo, at_loc s L c hs lo ->
  exists s', (do s <- G_Free_Element true L s;
              do s <- (if link then wr_c L (CLink w) s else let (b, s) := malloc (BTerm w) s in wr_c L (CCopy b) s); Ret (AOk s)) = Ret (AOk s') /\
    assigned s s' L c hs (AWord w).
Proof.
  intros w link s L c hs lo [AC AT AH AO AOH AL ACN AU AB ALT].
  destruct (G_Free_ok c true s L hs lo) as (s1 & -> & FR & HB & UC); try assumption. cbn [bind].
  assert (C1 := updcell_cell _ _ _ _ UC). cbn [cof] in C1.
  assert (LL : fst L < nb s1) by (rewrite (sm_nb _ _ (fr_same _ _ _ _ _ FR)); exact ALT).
  destruct link.
  - unfold wr_c. rewrite (rd_ok _ _ _ C1) by apply cof_junk. cbn [bind e_u].
    destruct (fresh_word s1 L _ w None C1) as (s' & -> & F). cbn [bind]. exists s'. split; [reflexivity|]. exists s1, (cof c), (TWord w). auto.
  - destruct (fresh_term s1 L _ w None C1 LL) as (s' & E & F).
    destruct (malloc (BTerm w) s1) as [b s2] eqn:EM. assert (b = nb s1) by (unfold malloc in EM; congruence). subst b. cbn [snd] in E.
    unfold wr_c. assert (C2 : cell (hp s2) L = Some (Elt (cof c) None)).
    { unfold malloc in EM. injection EM as <-. unfold cell. cbn [hp]. rewrite upd_other by lia. exact C1. }
    rewrite (rd_ok _ _ _ C2) by apply cof_junk. cbn [bind e_u]. rewrite E. cbn [bind]. exists s'. split; [reflexivity|]. exists s1, (cof c), (TCopy (nb s1) w). auto.
Qed.
Lemma const_assignable : forall w, assignable (SConst w).
Proof.
  intros w cp s L c hs lo A _. cbn [G_Assign_Element]. rewrite (rd_ok _ _ _ (a_cell _ _ _ _ _ A)) by apply cof_junk. cbn [bind].
  apply (plain_ok w true s L c hs lo A).
Qed.
Lemma term_assignable : forall w, assignable (STerm w).
Proof.
  intros w cp s L c hs lo A _. cbn [G_Assign_Element]. rewrite (rd_ok _ _ _ (a_cell _ _ _ _ _ A)) by apply cof_junk. cbn [bind].
  apply (plain_ok w (negb cp) s L c hs lo A).
Qed.

(** the elements, the mark at the end, and what follows *)
Lemma tail_N : forall op init cp n s1 s2 L b l d uo (finish : gst -> outcome ares), buildable init ->
  prog s1 s2 L (hp s2 (fst L)) b n l d -> fst L < nb s1 -> d <> DNone -> updcell (hp s1) (hp s2) L (Elt (CArr n b) uo) ->
  exists s' t, abind (aloop (filler init b cp) (n - lenL l) (lenL l) s2) (fun s =>
      abind (if is_auto op then filler init b cp n s else Ret (AOk s)) finish) = finish s' /\
    fresh s1 s' L uo t (AArr (valL l ++ repeat (vsrc init) (n - lenL l)) (if is_auto op then Some (vsrc init) else valD d)).
Proof.
  intros op init cp n s1 s2 L b l d uo finish BI P LL ND UC. pose proof (p_n _ _ _ _ _ _ _ _ P) as PN.
  destruct (fill_ok init cp _ b n BI (prog_grows s1 L _ b n d LL) (n - lenL l) s2 l P) as (s3 & l' & -> & P3 & V3); [lia|]. cbn [abind].
  assert (LE3 : lenL (catL l l') = n) by (rewrite <- valL_len, catL_val, V3, app_length, repeat_length, valL_len; lia).
  assert (UC' : forall s4, hp s4 (fst L) = hp s2 (fst L) -> updcell (hp s1) (hp s4) L (Elt (CArr n b) uo)).
  { intros s4 Q. apply (updcell_eq (hp s1) (hp s2)); [exact UC|reflexivity|exact Q]. }
  destruct (is_auto op).
  - destruct (prog_cell _ _ _ _ _ _ _ _ n P3) as (e3 & C3); [lia|]. pose proof (p_b _ _ _ _ _ _ _ _ P3).
    destruct (BI cp s3 (b, n) e3 C3) as (s4 & t4 & E4 & F4); [cbn [fst]; lia|]. unfold filler. rewrite E4. cbn [abind].
    pose proof (prog_sent _ _ _ _ _ _ _ _ _ _ _ P3 LL F4) as P4.
    eexists s4, _. split; [reflexivity|]. rewrite <- V3, <- catL_val, <- (f_v _ _ _ _ _ _ F4).
    apply (prog_done _ _ _ _ _ n _ (DSome t4) _ P4); [exact LE3|discriminate|]. apply UC'. apply (p_L _ _ _ _ _ _ _ _ P4).
  - cbn [abind]. eexists s3, _. split; [reflexivity|]. rewrite <- V3, <- catL_val.
    apply (prog_done _ _ _ _ _ n _ d _ P3); [exact LE3|exact ND|]. apply UC'. apply (p_L _ _ _ _ _ _ _ _ P3).
Qed.
Lemma tail_L : forall op ys cp n s1 s2 L b l d uo i0 (finish : gst -> outcome ares), Forall buildable ys -> length ys = n -> i0 = lenL l ->
  prog s1 s2 L (hp s2 (fst L)) b n l d -> fst L < nb s1 -> d <> DNone -> updcell (hp s1) (hp s2) L (Elt (CArr n b) uo) ->
  exists s' t, abind (list_filler b i0 cp ys 0 s2) (fun s =>
      if is_auto op then
        do s <- init_cell (b, n) s;
        do s <- G_Free_Element true (b, n) s;
        do s <- wr_c (b, n) initial s;
        finish s
      else finish s) = finish s' /\
    fresh s1 s' L uo t (AArr (valL l ++ map vsrc (skipn (lenL l) ys)) (if is_auto op then Some (AWord (GInt 0)) else valD d)).
Proof.
  intros op ys cp n s1 s2 L b l d uo i0 finish BI EN -> P LL ND UC. pose proof (p_n _ _ _ _ _ _ _ _ P) as PN.
  destruct (fill_list_ok (lenL l) cp _ b n ys BI (prog_grows s1 L _ b n d LL) 0 s2 l P) as (s3 & l' & -> & P3 & V3); [lia|lia|]. cbn [abind].
  rewrite Nat.sub_0_r in V3.
  assert (LE3 : lenL (catL l l') = n) by (rewrite <- valL_len, catL_val, V3, app_length, map_length, skipn_length, valL_len; lia).
  assert (UC' : forall s4, hp s4 (fst L) = hp s2 (fst L) -> updcell (hp s1) (hp s4) L (Elt (CArr n b) uo)).
  { intros s4 Q. apply (updcell_eq (hp s1) (hp s2)); [exact UC|reflexivity|exact Q]. }
  destruct (is_auto op).
  - destruct (prog_cell _ _ _ _ _ _ _ _ n P3) as (e3 & C3); [lia|]. pose proof (p_b _ _ _ _ _ _ _ _ P3).
    destruct (assignable_buildable _ (const_assignable (GInt 0)) cp s3 (b, n) e3 C3) as (s4 & t4 & E4 & F4); [cbn [fst]; lia|].
    cbn [G_Assign_Element] in E4.
    destruct (init_cell (b, n) s3) as [s5| |]; cbn [bind] in *; try discriminate E4.
    destruct (rd (b, n) s5) as [e5| |]; cbn [bind] in *; try discriminate E4.
    destruct (G_Free_Element true (b, n) s5) as [s6| |]; cbn [bind] in *; try discriminate E4. fold initial in E4.
    destruct (wr_c (b, n) initial s6) as [s7| |]; cbn [bind] in *; try discriminate E4. injection E4 as <-.
    pose proof (prog_sent _ _ _ _ _ _ _ _ _ _ _ P3 LL F4) as P4.
    eexists s7, _. split; [reflexivity|]. rewrite <- V3, <- catL_val. cbn [vsrc] in F4. rewrite <- (f_v _ _ _ _ _ _ F4).
    apply (prog_done _ _ _ _ _ n _ (DSome t4) _ P4); [exact LE3|discriminate|]. apply UC'. apply (p_L _ _ _ _ _ _ _ _ P4).
  - eexists s3, _. split; [reflexivity|]. rewrite <- V3, <- catL_val.
    apply (prog_done _ _ _ _ _ n _ d _ P3); [exact LE3|exact ND|]. apply UC'. apply (p_L _ _ _ _ _ _ _ _ P3).
Qed.

Definition finish (L : loc) (e : elt) (backtrack : bool) (s : gst) : outcome ares :=
  if backtrack then do s <- G_Trail_For_Backtrack L (e_c e) s; Ret (AOk s) else Ret (AOk s).
Lemma assign_N : forall op n init L bt cp s, G_Assign_Element (SArrN op n init) L bt cp s =
  do e <- rd L s;
  if (0 <? n)%Z then
    do p <- start_array L op (Z.to_nat n) bt s;
    let '(b, i0, s) := p in
    abind (aloop (filler init b cp) (Z.to_nat n - i0) i0 s) (fun s =>
    abind (if is_auto op then filler init b cp (Z.to_nat n) s else Ret (AOk s)) (finish L e bt))
  else Ret (AErr s).
Proof. reflexivity. Qed.
Lemma assign_L : forall op y ys L bt cp s, G_Assign_Element (SArrL op (y :: ys)) L bt cp s =
  do e <- rd L s;
  do p <- start_array L op (length (y :: ys)) bt s;
  let '(b, i0, s) := p in
  abind (list_filler b i0 cp (y :: ys) 0 s) (fun s =>
    if is_auto op then
      do s <- init_cell (b, length (y :: ys)) s;
      do s <- G_Free_Element true (b, length (y :: ys)) s;
      do s <- wr_c (b, length (y :: ys)) initial s;
      finish L e bt s
    else finish L e bt s).
Proof. reflexivity. Qed.

(** the old value is freed and the memory of the array allocated *)
Lemma start_nb : forall op n s L c hs lo, at_loc s L c hs lo -> (op = G_ARRAY_EXTEND -> is_arr c = false) ->
  exists s1 s2 b, start_array L op n false s = Ret (b, 0, s2) /\ freed true s s1 (idsC c) (uH hs ++ uidsC c) /\
    (forall b, ~ In b (idsC c) -> b <> fst L -> hp s1 b = hp s b) /\
    updcell (hp s) (hp s1) L (Elt initial None) /\
    prog s1 s2 L (hp s2 (fst L)) b n LNil DEnd /\ updcell (hp s1) (hp s2) L (Elt (CArr n b) None) /\ fst L < nb s1.
Proof.
  intros op n s L c hs lo [AC AT AH AO AOH AL ACN AU AB ALT] NE. unfold start_array. rewrite (rd_ok _ _ _ AC) by apply cof_junk. cbn [bind e_c].
  assert (match op, cof c with G_ARRAY_EXTEND, CArr _ _ => true | _, _ => false end = false) as ->.
  { destruct op; try reflexivity. specialize (NE eq_refl). destruct c; try reflexivity. discriminate NE. }
  cbn [negb andb]. destruct (G_Free_ok c true s L hs lo) as (s1 & -> & FR & HB & UC); try assumption. cbn [bind].
  assert (C1 := updcell_cell _ _ _ _ UC). cbn [cof] in C1. unfold wr_c. rewrite (rd_ok _ _ _ C1) by apply cof_junk. cbn [bind e_u].
  destruct (wr_ok L (Elt initial None) s1 _ C1) as (h2 & -> & UC2 & HB2). cbn [bind]. set (s2 := set_hp s1 h2).
  assert (LL : fst L < nb s2) by (cbn; rewrite (sm_nb _ _ (fr_same _ _ _ _ _ FR)); exact ALT).
  destruct (alloc_fresh s2 L n false initial None (updcell_cell _ _ _ _ UC2)) as (s3 & b & -> & P & UC3); [discriminate|discriminate|exact LL|].
  cbn [bind]. exists s2, s3, b. split; [reflexivity|]. split; [|split; [|split; [|auto]]].
  - destruct FR as [[N I R] FB FV FU]. constructor; cbn; auto; [constructor; auto|]. intros x Hx. rewrite HB2; [apply FB; exact Hx|].
    intros ->. apply AL. pose proof (idsC_cnt c (fst L)). mem.
  - intros x Nx Lx. cbn. rewrite HB2 by exact Lx. apply HB; assumption.
  - apply (updcell_trans _ (hp s1) _ _ (Elt (cof c) None)); assumption.
Qed.
Lemma all_assignable : forall x, wf_src x -> assignable x.
Proof.
  induction x as [w|w|op n init IH|op l IH|] using gsrc_ind'; intros W.
  - apply const_assignable.
  - apply term_assignable.
  - destruct W as (Wn & Wi). specialize (IH Wi). intros cp s L c hs lo A E. rewrite assign_N.
    rewrite (rd_ok _ _ _ (a_cell _ _ _ _ _ A)) by apply cof_junk. cbn [bind]. destruct (Z.ltb_spec 0 n); [|lia].
    destruct (start_nb op (Z.to_nat n) s L c hs lo A) as (s1 & s2 & b & -> & FR & HB & UC & P & UC2 & LL).
    { intros ->. exact E. }
    cbn [bind]. destruct (tail_N op init cp (Z.to_nat n) s1 s2 L b LNil DEnd None (finish L (Elt (cof c) (hdu hs)) false)) as (s' & t & E' & F); try assumption; [apply assignable_buildable; exact IH|discriminate|].
    cbn [lenL] in E'. rewrite E'. exists s'. split; [reflexivity|]. exists s1, initial, t. cbn [valL valD app lenL] in F. rewrite Nat.sub_0_r in F. auto.
  - destruct W as (Wn & Wl).
    assert (BL : Forall buildable l).
    { clear Wn. induction IH as [|z zs Hz _ IHz]; [constructor|]. constructor; [apply assignable_buildable; apply Hz; apply Wl|apply IHz; apply Wl]. }
    destruct l as [|y ys]; [contradiction|].
    intros cp s L c hs lo A E. rewrite assign_L.
    rewrite (rd_ok _ _ _ (a_cell _ _ _ _ _ A)) by apply cof_junk. cbn [bind].
    destruct (start_nb op (length (y :: ys)) s L c hs lo A) as (s1 & s2 & b & -> & FR & HB & UC & P & UC2 & LL).
    { intros ->. exact E. }
    cbn [bind]. destruct (tail_L op (y :: ys) cp (length (y :: ys)) s1 s2 L b LNil DEnd None 0 (finish L (Elt (cof c) (hdu hs)) false)) as (s' & t & E' & F); try assumption; try reflexivity; [discriminate|].
    rewrite E'. exists s'. split; [reflexivity|]. exists s1, initial, t. auto.
  - destruct W.
Qed.

(** * Assignments which are undone by backtracking *)
Lemma vassign_nb : forall x c, extends x c = false -> wf_src x -> vassign false x (valT c) = vsrc x.
Proof.
  intros [w|w|op n init|op l|] [w'|b' w'|b' l' d'] E W; try reflexivity; try (destruct W); destruct op; try reflexivity; discriminate E.
Qed.
Lemma skipn_repeat : forall {A} (x : A) n m, skipn m (repeat x n) = repeat x (n - m).
Proof. induction n as [|n IH]; intros [|m]; cbn; auto. Qed.

Lemma start_b : forall op n s L c hs lo, at_loc s L c hs lo -> (match valT c with AArr l0 _ => length l0 <= n | _ => True end) ->
  exists s2 b l d, start_array L op n true s = Ret (b, lenL l, s2) /\ prog s s2 L (hp s2 (fst L)) b n l d /\ d <> DNone /\
    updcell (hp s) (hp s2) L (Elt (CArr n b) (hdu hs)) /\
    valL l = match valT c with AArr l0 _ => match op with G_ARRAY_EXTEND => l0 | _ => [] end | _ => [] end /\
    valD d = match valT c with AArr _ d0 => d0 | _ => None end.
Proof.
  intros op n s L c hs lo [AC AT AH AO AOH AL ACN AU AB ALT] NE. unfold start_array. rewrite (rd_ok _ _ _ AC) by apply cof_junk. cbn [bind e_c].
  rewrite andb_false_r. cbn [bind]. destruct c as [w|b0 w|b0 l0 d0].
  - destruct (alloc_fresh s L n true _ _ AC) as (s2 & b & -> & P & UC); try discriminate; [exact ALT|]. cbn [bind cof].
    exists s2, b, LNil, DEnd. split; [destruct op; reflexivity|]. split; [exact P|]. split; [discriminate|]. auto.
  - destruct (alloc_fresh s L n true _ _ AC) as (s2 & b & -> & P & UC); try discriminate; [exact ALT|]. cbn [bind cof].
    exists s2, b, LNil, DEnd. split; [destruct op; reflexivity|]. split; [exact P|]. split; [discriminate|]. auto.
  - cbn [valT] in NE. rewrite valL_len in NE.
    destruct (alloc_copy s L n b0 l0 d0 (hdu hs) lo (nb s)) as (s2 & b & l & d & -> & P & VL & VD & ND & UC); try assumption. cbn [bind cof valT].
    assert (lenL l = lenL l0) by (rewrite <- !valL_len, VL; reflexivity).
    destruct op.
    + exists s2, b, LNil, d. split; [reflexivity|]. split; [apply (prog_cut _ _ _ _ _ _ _ _ P)|]. auto.
    + exists s2, b, LNil, d. split; [reflexivity|]. split; [apply (prog_cut _ _ _ _ _ _ _ _ P)|]. auto.
    + exists s2, b, l, d. rewrite H. split; [reflexivity|]. split; [exact P|]. auto.
Qed.
Lemma assign_b : forall x cp s L c hs lo, wf_src x -> at_loc s L c hs lo -> size_ok true x (valT c) ->
  exists s1 t, G_Assign_Element x L true cp s = finish L (Elt (cof c) (hdu hs)) true s1 /\
    fresh s s1 L (hdu hs) t (vassign true x (valT c)).
Proof.
  intros x cp s L c hs lo W A SO. pose proof A as [AC AT AH AO AOH AL ACN AU AB ALT].
  assert (PL : forall w (link : bool), exists s1 t,
    (do s <- (if link then wr_c L (CLink w) s else let (b, s) := malloc (BTerm w) s in wr_c L (CCopy b) s); finish L (Elt (cof c) (hdu hs)) true s)
      = finish L (Elt (cof c) (hdu hs)) true s1 /\ fresh s s1 L (hdu hs) t (AWord w)).
  { intros w [|].
    - unfold wr_c. rewrite (rd_ok _ _ _ AC) by apply cof_junk. cbn [bind e_u]. destruct (fresh_word s L _ w (hdu hs) AC) as (s1 & -> & F). cbn [bind]. eauto.
    - destruct (fresh_term s L _ w (hdu hs) AC ALT) as (s1 & E & F).
      destruct (malloc (BTerm w) s) as [b s2] eqn:EM. assert (b = nb s) by (unfold malloc in EM; congruence). subst b. cbn [snd] in E.
      unfold wr_c. assert (C2 : cell (hp s2) L = Some (Elt (cof c) (hdu hs))).
      { unfold malloc in EM. injection EM as <-. unfold cell. cbn [hp]. rewrite upd_other by lia. exact AC. }
      rewrite (rd_ok _ _ _ C2) by apply cof_junk. cbn [bind e_u]. rewrite E. cbn [bind]. eauto. }
  destruct x as [w|w|op n init|op l|].
  - cbn [G_Assign_Element]. rewrite (rd_ok _ _ _ AC) by apply cof_junk. cbn [bind]. apply (PL w true).
  - cbn [G_Assign_Element]. rewrite (rd_ok _ _ _ AC) by apply cof_junk. cbn [bind]. apply (PL w (negb cp)).
  - destruct W as (Wn & Wi). rewrite assign_N. rewrite (rd_ok _ _ _ AC) by apply cof_junk. cbn [bind]. destruct (Z.ltb_spec 0 n); [|lia].
    destruct (start_b op (Z.to_nat n) s L c hs lo A) as (s2 & b & l & d & -> & P & ND & UC & VL & VD).
    { destruct (valT c); [exact I|]. apply SO. left. reflexivity. }
    cbn [bind]. destruct (tail_N op init cp (Z.to_nat n) s s2 L b l d (hdu hs) (finish L (Elt (cof c) (hdu hs)) true)) as (s' & t & E' & F); try assumption;
      [apply assignable_buildable; apply all_assignable; exact Wi|].
    exists s', t. split; [exact E'|]. unfold vassign, arr_asg. rewrite VL, VD, <- valL_len, VL in F.
    destruct (valT c) as [w0|v0 d0]; destruct op; cbn [is_auto app length] in *; rewrite ?Nat.sub_0_r in F; try exact F.
    rewrite skipn_repeat. exact F.
  - destruct W as (Wn & Wl).
    assert (BL : Forall buildable l).
    { clear - Wl. induction l as [|z zs IHz]; [constructor|]. constructor; [apply assignable_buildable; apply all_assignable; apply Wl|apply IHz; apply Wl]. }
    destruct l as [|y ys]; [contradiction|]. rewrite assign_L. rewrite (rd_ok _ _ _ AC) by apply cof_junk. cbn [bind].
    destruct (start_b op (length (y :: ys)) s L c hs lo A) as (s2 & b & l & d & -> & P & ND & UC & VL & VD).
    { destruct (valT c); [exact I|]. apply SO. left. reflexivity. }
    cbn [bind]. destruct (tail_L op (y :: ys) cp (length (y :: ys)) s s2 L b l d (hdu hs) (lenL l) (finish L (Elt (cof c) (hdu hs)) true)) as (s' & t & E' & F); try assumption; try reflexivity.
    exists s', t. split; [exact E'|]. unfold vassign, arr_asg. rewrite VL, VD, <- valL_len, VL in F.
    destruct (valT c) as [w0|v0 d0]; destruct op; cbn [is_auto app length skipn] in *; try exact F.
    rewrite skipn_map. exact F.
  - destruct W.
Qed.
