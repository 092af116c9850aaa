(** Proofs for C38, C39: each operation keeps the invariant. *)
Require Import ZArith List Bool Arith Lia Permutation Sorted.
Require Import Verif.Heap_Model Verif.Gvar_Model Verif.Gvar_Spec Verif.Gvar_Tree Verif.Gvar_Free Verif.Gvar_Build Verif.Gvar_Grow Verif.Gvar_Inv.
Import ListNotations.
Open Scope nat_scope.

(** ** Saved values *)
Lemma sav_hH : forall hs h U L p, hH h U L p hs -> Forall (hT h U) (savH hs).
Proof. induction hs as [|u t r IH]; intros h U L p Hh; [constructor|]. destruct Hh as (_ & Ht & Hr). constructor; [exact Ht|apply (IH _ _ _ _ Hr)]. Qed.
Lemma sav_h :
  (forall t h U, hT h U t -> Forall (hT h U) (savT t)) /\
  (forall l h U b i, hL h U b i l -> Forall (hT h U) (savL l)) /\
  (forall h : Hs, True) /\
  (forall d h U b i, hD h U b i d -> Forall (hT h U) (savD d)).
Proof.
  apply tree_ind; try (intros; exact I); cbn [savT savL savD hT hL hD]; try (intros; constructor).
  - intros b l IHl d IHd h U (_ & HL & HD). apply Forall_app. split; [apply (IHl _ _ _ _ HL)|apply (IHd _ _ _ _ HD)].
  - intros t IHt hs _ r IHr h U b i (_ & Ht & Hh & Hr). apply Forall_app. split; [apply (sav_hH _ _ _ _ _ Hh)|]. apply Forall_app. split; [apply (IHt _ _ Ht)|apply (IHr _ _ _ _ Hr)].
  - intros t IHt h U b i (_ & Ht). apply (IHt _ _ Ht).
Qed.
Lemma sav_oH : forall hs lo hi, ordH lo hi hs -> Forall (ordT 0 hi) (savH hs).
Proof.
  induction hs as [|u t r IH]; intros lo hi Oh; [constructor|]. destruct Oh as (_ & L & Ot & Or). constructor.
  - apply (proj1 ord_hi t 0 u hi); [lia|]. apply (proj1 ord_lo t 0 (loH lo r) u); [lia|exact Ot].
  - specialize (IH lo u Or). rewrite Forall_forall in *. intros x Hx. apply (proj1 ord_hi x 0 u hi); [lia|apply IH; exact Hx].
Qed.
Lemma sav_o :
  (forall t lo hi, ordT lo hi t -> Forall (ordT 0 hi) (savT t)) /\
  (forall l lo hi, ordL lo hi l -> Forall (ordT 0 hi) (savL l)) /\
  (forall h : Hs, True) /\
  (forall d lo hi, ordD lo hi d -> Forall (ordT 0 hi) (savD d)).
Proof.
  apply tree_ind; try (intros; exact I); cbn [savT savL savD ordT ordL ordD]; try (intros; constructor).
  - intros b l IHl d IHd lo hi (HL & HD). apply Forall_app. split; [apply (IHl _ _ HL)|apply (IHd _ _ HD)].
  - intros t IHt hs _ r IHr lo hi (Ht & Hh & Hr). apply Forall_app. split; [apply (sav_oH _ _ _ Hh)|]. apply Forall_app. split; [apply (IHt _ _ Ht)|apply (IHr _ _ Hr)].
  - intros t IHt lo hi (_ & Ht). apply (IHt _ _ Ht).
Qed.

(** ** An element of a variable *)
Lemma INV_elt : forall s t R p L c hs, INV s (t :: R) -> getP p t = Some (L, c, hs) ->
  (exists lo, at_loc s L c hs lo) /\
  (forall x, one x (fst L) + cnt x (idsT c) + cnt x (idsH hs) <= 1) /\
  (forall x, cnt x (uidsT c) + cnt x (uidsH hs) <= 1) /\
  (forall x, In x (idsT c) \/ In x (idsH hs) -> x < nb s) /\
  (forall u, In u (uidsT c) \/ In u (uidsH hs) -> In u (tr s) /\ u < nb s).
Proof.
  intros s t R p L c hs IN E. destruct IN as [A1 A2 A3 A4 A5 A6 A7 A8 A9 A10 A11 A12].
  assert (GI := fun x => cnt_getP p t L c hs x E). assert (GU := fun x => ucnt_getP p t L c hs x E).
  destruct (getP_hT p t _ _ L c hs (Forall_inv A1) E) as (C0 & Hc0 & Hh0).
  destruct (getP_top p t L c hs 0 (nb s) (Forall_inv A5) E) as (lo & _ & LO & O1 & O2 & _).
  assert (I1 : forall x, one x (fst L) + cnt x (idsT c) + cnt x (idsH hs) <= 1).
  { intros x. specialize (A2 x). specialize (GI x). rewrite all_cons in A2. lia. }
  assert (U1 : forall x, cnt x (uidsT c) + cnt x (uidsH hs) <= 1).
  { intros x. specialize (A4 x). specialize (GU x). rewrite allU_cons in A4. lia. }
  assert (I2 : forall x, In x (idsT c) \/ In x (idsH hs) -> x < nb s).
  { intros x Hx. apply A3. apply cnt_in. rewrite all_cons. specialize (GI x). destruct Hx; mem. }
  split; [|split; [exact I1|split; [exact U1|split; [exact I2|]]]].
  - exists lo. constructor; auto.
    + apply (proj1 ord_lo c lo (loH lo hs)); [apply (loH_le lo (nb s)); exact O2|exact O1].
    + specialize (I1 (fst L)). rewrite one_same in I1. mem.
    + intros x. specialize (I1 x). lia.
    + apply A3. apply cnt_in. rewrite all_cons. specialize (GI (fst L)). rewrite one_same in GI. lia.
  - intros u Hu. assert (In u (tr s)).
    { apply A8. apply cnt_in. rewrite allU_cons. specialize (GU u). destruct Hu; mem. }
    split; [assumption|]. rewrite Forall_forall in A7. apply A7. assumption.
Qed.

(** ** Assignments which are not undone *)
Lemma step_nb : forall s s' t R p L c hs v, INV s (t :: R) -> getP p t = Some (L, c, hs) -> assigned s s' L c hs v ->
  info s' = info s /\ tr s' = tr s /\ nb s <= nb s' /\
  exists t', valT t' = v /\ uidsT t' = [] /\ INV s' (setP p t' HNil t :: (savH hs ++ savT c) ++ R).
Proof.
  intros s s' t R p L c hs v IN E (s1 & c1 & t' & FR & HB & UC & F).
  destruct (INV_elt s t R p L c hs IN E) as ((lo & A) & I1 & U1 & I2 & U2).
  destruct FR as [[N1 N2 N3] FB FV FU]. destruct F as [FX FH FU' FO FV' FI FC FL]. destruct FX as [X1 X2 X3 X4 X5].
  split; [congruence|]. split; [congruence|]. split; [lia|]. exists t'. split; [exact FV'|]. split; [exact FU'|].
  destruct A as [AC AT AH AO AOH AL ACN AU AB ALT].
  assert (GI : forall x, cnt x (allI (savH hs ++ savT c)) = cnt x (idsH hs) + cnt x (flat_map idsT (savT c))).
  { intros x. rewrite all_app. unfold allI. rewrite <- (proj1 (proj2 (proj2 hold_C))). reflexivity. }
  assert (GU : forall x, cnt x (allU (savH hs ++ savT c)) = cnt x (flat_map uidsT (savH hs)) + cnt x (flat_map uidsT (savT c))).
  { intros x. rewrite allU_app. reflexivity. }
  assert (HI := fun x => proj1 hold_C c x). assert (HU := fun x => proj1 hold_uC c x). assert (HUH := fun x => proj1 (proj2 (proj2 hold_uC)) hs x).
  assert (V1 : forall u, In u (uH hs ++ uidsC c) -> un s' u = option_map unvalid (un s u)).
  { intros u Hu. rewrite X1. apply FV; [reflexivity|exact Hu]. }
  apply (INV_set s s' t R p L c hs t' HNil); auto.
  - lia.
  - congruence.
  - exact (updcell_trans _ _ _ _ _ _ UC FL).
  - intros x Lx Nx N4 N5. rewrite X5 by lia. apply HB; [|exact Nx]. pose proof (idsC_cnt c x). mem.
  - intros u N4 N5 _. rewrite X1. apply FU. right. pose proof (uidsC_cnt c u). pose proof (uH_cnt hs u). mem.
  - exact I.
  - rewrite Forall_forall. intros g Hg.
    assert (Hg0 : hT (hp s) (un s) g).
    { assert (Q : Forall (hT (hp s) (un s)) (savH hs ++ savT c)) by (apply Forall_app; split; [apply (sav_hH _ _ _ _ _ AH)|apply (proj1 sav_h _ _ _ AT)]).
      rewrite Forall_forall in Q. apply Q. exact Hg. }
    apply (frameT g (hp s) (un s)); [| |exact Hg0].
    + intros x Hx. pose proof (allI_in g _ x Hg Hx) as Q. specialize (GI x). specialize (HI x). specialize (I1 x).
      assert (x < nb s) by (apply I2; destruct (in_dec Nat.eq_dec x (idsH hs)); [right; assumption|left; mem]).
      assert (x <> fst L). { intros ->. rewrite one_same in I1. mem. }
      rewrite X5 by lia. apply HB; [|assumption]. mem.
    + intros u Hu. pose proof (allU_in g _ u Hg Hu) as Q. specialize (GU u). specialize (HU u). specialize (HUH u). specialize (U1 u).
      rewrite X1. apply FU. right. mem.
  - intros x. specialize (GI x). specialize (HI x). specialize (FC x). cbn [idsH]. rewrite cnt_nil.
    destruct (Nat.lt_ge_cases x (nb s)) as [Q|Q]; [rewrite inb_lt by exact Q|rewrite inb_ge by exact Q; lia].
    assert (~ In x (idsT t')) by (intros Q'; specialize (FI x Q'); lia). mem.
  - intros x Hx. cbn [idsH app] in Hx. apply in_app_or in Hx. destruct Hx as [Hx|Hx]; [apply FI; exact Hx|].
    assert (x < nb s); [|lia]. apply I2. specialize (GI x). specialize (HI x). destruct (in_dec Nat.eq_dec x (idsH hs)); [right; assumption|left; mem].
  - intros u. rewrite FU'. cbn [uidsH]. rewrite !cnt_nil, GU. specialize (HU u). specialize (HUH u). lia.
  - intros lo' _ Oc Oh. split; [apply FO|]. split; [exact I|]. apply Forall_app. 
    assert (nb s <= nb s') by lia. split.
    + pose proof (sav_oH _ _ _ Oh) as Q. rewrite Forall_forall in *. intros x Hx. apply (proj1 ord_hi x 0 (nb s)); [assumption|apply Q; exact Hx].
    + pose proof (proj1 sav_o _ _ _ Oc) as Q. rewrite Forall_forall in *. intros x Hx. apply (proj1 ord_hi x 0 (nb s)); [assumption|apply Q; exact Hx].
  - intros u Hu _ _. congruence.
  - intros u Hu. rewrite FU' in Hu. cbn [uidsH app] in Hu. rewrite X3, N3. apply U2. specialize (GU u). specialize (HU u). specialize (HUH u).
    destruct (in_dec Nat.eq_dec u (uidsH hs)); [right; assumption|left; mem].
  - intros u Hu. left. congruence.
  - intros u Hu Ht. rewrite FU'. cbn [uidsH app]. specialize (GU u). specialize (HU u). specialize (HUH u).
    destruct (in_dec Nat.eq_dec u (allU (savH hs ++ savT c))) as [Q|Q]; [left; exact Q|]. right.
    assert (Iu : In u (uH hs ++ uidsC c)) by (apply in_app_or in Hu; destruct Hu; mem).
    apply (linked_ivr (un s) (un s') (uH hs ++ uidsC c)); [|exact Iu| |exact V1].
    + apply in_app_or in Iu. destruct Iu as [Iu|Iu].
      * apply (chain_linked hs (hp s) (un s) L None lo (nb s)); [exact AH|exact AOH|apply incl_appl; apply incl_refl|discriminate|exact Iu].
      * apply (linked_incl _ (uidsC c)); [apply (proj1 cur_linked c (hp s) (un s) lo (nb s)); assumption|apply incl_appr; apply incl_refl].
    + intros w Hw. rewrite X3, N3. apply U2. clear - Hw. pose proof (uidsC_cnt c w). pose proof (uH_cnt hs w).
      apply in_app_or in Hw. destruct Hw; [right|left]; mem.
  - rewrite X3, N3. apply (i_s _ _ IN).
  - pose proof (i_tlt _ _ IN) as Q. rewrite X3, N3. rewrite Forall_forall in *. intros u Hu. specialize (Q u Hu). lia.
Qed.

(** ** Assignments which are undone *)
Lemma step_b : forall s s1 t R p L c hs t' v, INV s (t :: R) -> getP p t = Some (L, c, hs) -> fresh s s1 L (hdu hs) t' v ->
  exists s', finish L (Elt (cof c) (hdu hs)) true s1 = Ret (AOk s') /\
    info s' = info s /\ tr s' = nb s1 :: tr s /\ nb s <= nb s1 /\
    INV s' (setP p t' (HCons (nb s1) c hs) t :: [] ++ R).
Proof.
  intros s s1 t R p L c hs t' v IN E F.
  destruct (INV_elt s t R p L c hs IN E) as ((lo & A) & I1 & U1 & I2 & U2).
  destruct F as [FX FH FU' FO FV' FI FC FL]. destruct FX as [X1 X2 X3 X4 X5].
  destruct A as [AC AT AH AO AOH AL ACN AU AB ALT].
  unfold finish, G_Trail_For_Backtrack. cbn [e_c]. rewrite (rd_ok _ _ _ (updcell_cell _ _ _ _ FL)) by apply cof_junk. cbn [bind e_u].
  set (u := nb s1).
  assert (Hd : forall n, hdu hs = Some n -> n < nb s).
  { intros n Q. destruct hs; [discriminate Q|]. injection Q as <-. apply (U2 u0). right. left. reflexivity. }
  assert (ST : exists U', (do s2 <- match hdu hs with
      | Some n => do r <- rd_undo n (Gst (hp s1) (upd (un s1) u (Some (Undo (Some L) (cof c) (hdu hs) None))) (info s1) (S u) (tr s1));
          wr_undo n (Undo (u_loc r) (u_save r) (u_next r) (Some u)) (Gst (hp s1) (upd (un s1) u (Some (Undo (Some L) (cof c) (hdu hs) None))) (info s1) (S u) (tr s1))
      | None => Ret (Gst (hp s1) (upd (un s1) u (Some (Undo (Some L) (cof c) (hdu hs) None))) (info s1) (S u) (tr s1)) end; Ret s2)
      = Ret (Gst (hp s1) U' (info s1) (S u) (tr s1)) /\
      U' u = Some (Undo (Some L) (cof c) (hdu hs) None) /\ hH (hp s) U' L (Some u) hs /\
      (forall w, w <> u -> ~ In w (uidsH hs) -> U' w = un s w)).
  { destruct hs as [|n tn r]; cbn [hdu].
    - eexists. split; [reflexivity|]. rewrite upd_same. split; [reflexivity|]. split; [exact I|]. intros w Nw _. rewrite upd_other by exact Nw. apply X1.
    - destruct AH as (En & Htn & Hr). pose proof (Hd n eq_refl) as Ln. assert (Nn : n <> u) by (unfold u; lia).
      unfold rd_undo at 1. cbn [un]. rewrite upd_other, X1, En by exact Nn. cbn [bind]. unfold wr_undo. cbn [un]. rewrite upd_other, X1, En by exact Nn.
      cbn [bind u_loc u_save u_next]. unfold set_un. cbn [hp info nb tr]. eexists. split; [reflexivity|].
      rewrite upd_other by (intros Q; apply Nn; symmetry; exact Q). rewrite upd_same. split; [reflexivity|].
      cbn [uidsH] in *. assert (UN : ~ In n (uidsT tn ++ uidsH r)) by (specialize (U1 n); rewrite cnt_cons, one_same in U1; mem).
      assert (UL : forall w, In w (uidsT tn ++ uidsH r) -> w <> n /\ w <> u).
      { intros w Hw. split; [intros ->; contradiction|]. assert (w < nb s) by (apply U2; right; right; exact Hw). unfold u. lia. }
      assert (UE : forall w, In w (uidsT tn ++ uidsH r) -> upd (upd (un s1) u (Some (Undo (Some L) (cof c) (Some n) None))) n (Some (Undo (Some L) (cof tn) (hdu r) (Some u))) w = un s w).
      { intros w Hw. destruct (UL w Hw). rewrite !upd_other by assumption. apply X1. }
      split; [|intros w N1 N2; rewrite !upd_other; [apply X1|exact N1|intros ->; apply N2; left; reflexivity]].
      cbn [hH]. rewrite upd_same. split; [reflexivity|]. split.
      + apply (frameT tn (hp s) (un s)); [reflexivity| |exact Htn]. intros w Hw. apply UE. apply in_or_app. left. exact Hw.
      + apply (proj1 (proj2 (proj2 frame)) r (hp s) (un s)); [reflexivity| |exact Hr]. intros w Hw. apply UE. apply in_or_app. right. exact Hw. }
  destruct ST as (U' & ES & EU & HH & UO).
  match type of ES with (do s2 <- ?m; Ret s2) = _ => destruct m as [s2| |]; cbn [bind] in ES; try discriminate ES; injection ES as -> end.
  cbn [bind]. unfold wr_u. set (s3 := Gst (hp s1) U' (info s1) (S u) (tr s1)).
  assert (C3 : cell (hp s3) L = Some (Elt (cof t') (hdu hs))) by exact (updcell_cell _ _ _ _ FL).
  rewrite (rd_ok _ _ _ C3) by apply cof_junk. cbn [bind e_c].
  destruct (wr_ok L (Elt (cof t') (Some u)) s3 _ C3) as (h' & -> & UC & HB). cbn [bind set_hp hp un info nb tr s3].
  eexists. split; [reflexivity|]. split; [exact X2|]. split; [rewrite <- X3; reflexivity|]. split; [exact X4|].
  change (hp s3) with (hp s1) in UC, HB.
  set (s' := Gst h' U' (info s1) (S u) (u :: tr s1)).
  assert (NT : forall x, In x (idsT t') -> x <> fst L) by (intros x Hx ->; specialize (FI _ Hx); lia).
  assert (HP : forall x, x < nb s -> x <> fst L -> h' x = hp s x) by (intros x Lx Nx; rewrite HB by exact Nx; apply X5; assumption).
  assert (NU : forall w, In w (uidsT c) \/ In w (uidsH hs) -> w <> u) by (intros w Hw; destruct (U2 w Hw); unfold u; lia).
  assert (LI : forall x, In x (idsT c) \/ In x (idsH hs) -> h' x = hp s x).
  { intros x Hx. apply HP; [apply I2; exact Hx|]. intros ->. specialize (I1 (fst L)). rewrite one_same in I1. destruct Hx; mem. }
  apply (INV_set s s' t R p L c hs t' (HCons u c hs)); cbn [hp un info nb tr s' hdu cof idsH uidsH]; auto.
  - exact (updcell_trans _ _ _ _ _ _ FL UC).
  - intros w N1 N2 Lw. apply UO; [unfold u; lia|exact N2].
  - apply (frameT t' (hp s1) (un s1)); [intros x Hx; apply HB; apply NT; exact Hx| |exact FH]. rewrite FU'. intros w [].
  - cbn [hH]. split; [exact EU|]. split.
    + apply (frameT c (hp s) (un s)); [intros x Hx; apply LI; left; exact Hx| |exact AT].
      intros w Hw. apply UO; [apply NU; left; exact Hw|]. specialize (U1 w). mem.
    + apply (proj1 (proj2 (proj2 frame)) hs (hp s) U'); [intros x Hx; apply LI; right; exact Hx|reflexivity|exact HH].
  - intros x. unfold allI. cbn [flat_map]. rewrite cnt_nil, cnt_app. specialize (FC x).
    destruct (Nat.lt_ge_cases x (nb s)) as [Q|Q]; [rewrite inb_lt by exact Q|rewrite inb_ge by exact Q; lia].
    assert (~ In x (idsT t')) by (intros Q'; specialize (FI x Q'); lia). mem.
  - intros x Hx. unfold allI in Hx. cbn [flat_map] in Hx. rewrite app_nil_r, in_app_iff in Hx. destruct Hx as [Hx|Hx]; [specialize (FI x Hx); unfold u; lia|].
    apply in_app_or in Hx. assert (x < nb s) by (apply I2; exact Hx). unfold u. lia.
  - intros w. unfold allU. cbn [flat_map]. rewrite FU', !cnt_nil, cnt_cons, cnt_app.
    destruct (Nat.eq_dec w u) as [->|Nw]; [rewrite inb_ge by exact X4; rewrite one_same|rewrite one_other by exact Nw]; lia.
  - intros lo' Llo Oc Oh. split; [apply FO|]. cbn [ordH]. split; [|constructor]. split; [unfold u; lia|]. split; [lia|]. split.
    + apply (proj1 ord_hi c _ (nb s)); [exact X4|exact Oc].
    + apply (proj1 (proj2 (proj2 ord_hi)) hs _ (nb s)); [exact X4|exact Oh].
  - intros w Hw _ _. right. rewrite X3. exact Hw.
  - intros w Hw. rewrite FU' in Hw. cbn [app] in Hw. unfold allU in Hw. cbn [flat_map] in Hw. rewrite app_nil_r in Hw. destruct Hw as [<-|Hw]; [left; reflexivity|].
    right. rewrite X3. apply U2. apply in_app_or. exact Hw.
  - intros w [<-|Hw]; [right; rewrite FU'; left; reflexivity|]. left. rewrite <- X3. exact Hw.
  - intros w Hw _. left. rewrite FU'. cbn [app]. right. apply in_or_app. left. exact Hw.
  - rewrite X3. constructor; [apply (i_s _ _ IN)|]. pose proof (i_tlt _ _ IN) as Q. rewrite Forall_forall in *. intros w Hw. specialize (Q w Hw). unfold u. lia.
  - constructor; [lia|]. rewrite X3. pose proof (i_tlt _ _ IN) as Q. rewrite Forall_forall in *. intros w Hw. specialize (Q w Hw). unfold u. lia.
Qed.

(** ** Larger arrays *)
Lemma step_grow : forall s s' t R p L b0 l0 d0 hs b ln, INV s (t :: R) -> getP p t = Some (L, TArr b0 l0 d0, hs) ->
  enlarged s s' L b0 l0 d0 hs b ln ->
  info s' = info s /\ tr s' = tr s /\ nb s < nb s' /\ INV s' (setP p (TArr b (catL l0 ln) d0) hs t :: [] ++ R).
Proof.
  intros s s' t R p L b0 l0 d0 hs b ln IN E (G & UC).
  destruct (INV_elt s t R p L _ hs IN E) as ((lo & A) & I1 & U1 & I2 & U2).
  destruct G as [GU GF GR GH GL Gb (els & GE & LE) Gl Gd Gu GO GI GC GOLD GN].
  destruct A as [AC AT AH AO AOH AL ACN AU AB ALT]. cbn [idsT uidsT] in *.
  split; [exact GF|]. split; [exact GR|]. split; [lia|].
  assert (SD : sent d0 = 1) by (destruct AO as (_ & AO); destruct d0; [destruct AO|reflexivity|reflexivity]).
  assert (D0 : uidsD d0 = []) by (destruct AO as (_ & AO); destruct d0; [reflexivity|reflexivity|apply AO]).
  assert (CI : forall x, cnt x (idsL (catL l0 ln)) = cnt x (idsL l0) + cnt x (idsL ln)) by (intros x; rewrite catL_ids; apply cnt_app).
  assert (CUs : uidsL (catL l0 ln) = uidsL l0) by (rewrite catL_uids, Gu, app_nil_r; reflexivity).
  apply (INV_set s s' t R p L (TArr b0 l0 d0) hs (TArr b (catL l0 ln) d0) hs); auto.
  - lia.
  - intros x Lx Nx N1 N2. apply GH; [exact Lx|exact Nx|]. intros ->. apply N1. left. reflexivity.
  - intros u N1 N2 _. apply GU. intros Q. apply N1. cbn [uidsT]. apply in_or_app. left. exact Q.
  - cbn [hT]. split; [exists els; split; [exact GE|lia]|]. split; [exact Gl|exact Gd].
  - apply (proj1 (proj2 (proj2 frame)) hs (hp s) (un s)); [| |exact AH].
    + intros x Hx. specialize (I1 x). rewrite cnt_cons in I1. apply GH; [apply I2; right; exact Hx| |].
      * intros ->. rewrite one_same in I1. mem.
      * intros ->. rewrite (one_same b0) in I1. mem.
    + intros u Hu. apply GU. specialize (U1 u). mem.
  - intros x. unfold allI. cbn [flat_map idsT]. rewrite !cnt_nil, !cnt_cons, !cnt_app, CI. specialize (GC x). rewrite cnt_cons in GC.
    destruct (Nat.lt_ge_cases x (nb s)) as [Q|Q]; [rewrite inb_lt by exact Q|rewrite inb_ge by exact Q; lia].
    assert (~ In x (idsL ln)) by (intros Q'; specialize (GI x Q'); lia). rewrite (one_other x b) by lia. mem.
  - intros x Hx. unfold allI in Hx. cbn [flat_map idsT] in Hx. rewrite app_nil_r, catL_ids in Hx. cbn [app] in Hx.
    destruct Hx as [<-|Hx]; [lia|]. rewrite !in_app_iff in Hx. destruct (in_dec Nat.eq_dec x (idsL ln)) as [Q|Q]; [apply GI; exact Q|]. assert (x < nb s); [|lia].
    apply I2. cbn [In]. rewrite !in_app_iff. tauto.
  - intros u. unfold allU. cbn [flat_map uidsT]. rewrite cnt_nil, CUs. lia.
  - intros lo' _ (Oc1 & Oc2) Oh. assert (nb s <= nb s') by lia. cbn [ordT]. split; [split|split; [|constructor]].
    + apply catL_ord. split; [|apply GO]. apply (proj1 (proj2 ord_hi) l0 _ (nb s)); assumption.
    + apply (proj2 (proj2 (proj2 ord_hi)) d0 _ (nb s)); assumption.
    + apply (proj1 (proj2 (proj2 ord_hi)) hs _ (nb s)); assumption.
  - intros u Hu _ _. rewrite GR. exact Hu.
  - intros u Hu. rewrite GR. apply U2. cbn [uidsT] in Hu. rewrite CUs in Hu. unfold allU in Hu. cbn [flat_map] in Hu. rewrite app_nil_r in Hu.
    apply in_app_or. exact Hu.
  - intros u Hu. left. rewrite <- GR. exact Hu.
  - intros u Hu _. left. cbn [uidsT] in *. rewrite CUs. unfold allU. cbn [flat_map]. rewrite app_nil_r. exact Hu.
  - rewrite GR. apply (i_s _ _ IN).
  - rewrite GR. pose proof (i_tlt _ _ IN) as Q. rewrite Forall_forall in *. intros u Hu. specialize (Q u Hu). lia.
Qed.
