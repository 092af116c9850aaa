(** Proofs for C38, C39: arrays which become larger. *)
Require Import ZArith List Bool Arith Lia.
Require Import Verif.Heap_Model Verif.Gvar_Model Verif.Gvar_Spec Verif.Gvar_Tree Verif.Gvar_Free Verif.Gvar_Build.
Import ListNotations.
Open Scope nat_scope.

Lemma retarget_ok : forall hs h U L L' p fuel s, hH h U L p hs -> (forall x, cnt x (uidsH hs) <= 1) ->
  (forall x, In x (uidsH hs) -> un s x = U x) -> (forall b, In b (idsH hs) -> hp s b = h b) -> length (uH hs) <= fuel ->
  exists U', retarget fuel (hdu hs) L' s = Ret (set_un s U') /\ hH (hp s) U' L' p hs /\
    (forall x, ~ In x (uidsH hs) -> U' x = un s x).
Proof.
  induction hs as [|u t r IH]; intros h U L L' p fuel s Hh ND EU EH F.
  - exists (un s). destruct fuel, s; cbn; auto.
  - destruct Hh as (E & Ht & Hr). cbn [uH hdu length uidsH idsH] in *. destruct fuel as [|fuel]; [lia|]. cbn [retarget].
    assert (Eu : un s u = Some (Undo (Some L) (cof t) (hdu r) p)) by (rewrite EU by (left; reflexivity); exact E).
    assert (NI : ~ In u (uidsT t ++ uidsH r)) by (specialize (ND u); rewrite cnt_cons, one_same in ND; mem).
    unfold rd_undo, wr_undo. rewrite Eu. cbn [bind u_next u_save u_prev].
    set (s1 := set_un s _).
    destruct (IH h U L L' (Some u) fuel s1 Hr) as (U' & EI & A & B).
    + intros x. specialize (ND x). rewrite cnt_cons in ND. cnts. lia.
    + intros x Hx. unfold s1. cbn [un set_un]. rewrite upd_other by (intros ->; apply NI; apply in_or_app; auto). apply EU. right. apply in_or_app. auto.
    + intros b Hb. apply EH. apply in_or_app. auto.
    + lia.
    + exists U'. rewrite EI. split; [reflexivity|]. split.
      * cbn [hH]. split; [|split; [|exact A]].
        -- rewrite B by (intros Q; apply NI; apply in_or_app; auto). unfold s1. cbn [un set_un]. apply upd_same.
        -- apply (frameT t h U); [intros b Hb; apply EH; apply in_or_app; auto| |exact Ht].
           intros x Hx. rewrite B.
           ++ unfold s1. cbn [un set_un]. rewrite upd_other by (intros ->; apply NI; apply in_or_app; auto). apply EU. right. apply in_or_app. auto.
           ++ specialize (ND x). rewrite cnt_cons in ND. mem.
      * intros x Nx. rewrite B by (intros Q; apply Nx; right; apply in_or_app; auto). unfold s1. cbn [un set_un].
        apply upd_other. intros ->. apply Nx. left. reflexivity.
Qed.
Lemma retarget_all : forall l h0 U0 s b0 b' i lo, hL h0 U0 b0 i l -> (forall u, In u (uidsL l) -> un s u = U0 u) ->
  (forall x, In x (idsL l) -> hp s x = h0 x) ->
  (forall j, i <= j < i + lenL l -> cell (hp s) (b', j) = cell h0 (b0, j)) -> (forall x, cnt x (uidsL l) <= 1) -> ordL lo (nb s) l ->
  exists U', loop (fun i s => do d <- rd (b', i) s; retarget (nb s) (e_u d) (b', i) s) (lenL l) i s = Ret (set_un s U') /\
    hL (hp s) U' b' i l /\ (forall u, ~ In u (uidsL l) -> U' u = un s u).
Proof.
  induction l as [|t hs r IH]; intros h0 U0 s b0 b' i lo HL EU EH EC ND O.
  - exists (un s). destruct s. cbn. auto.
  - destruct HL as (C & Ht & Hh & Hr). destruct O as (Ot & Oh & Or). cbn [lenL loop idsL uidsL] in *.
    assert (C' : cell (hp s) (b', i) = Some (Elt (cof t) (hdu hs))) by (rewrite EC by lia; exact C).
    rewrite (rd_ok _ _ _ C') by apply cof_junk. cbn [bind e_u].
    destruct (retarget_ok hs h0 U0 (b0, i) (b', i) None (nb s) s Hh) as (U1 & E1 & H1 & K1).
    { intros x. specialize (ND x). cnts. lia. }
    { intros x Hx. apply EU. rewrite !in_app_iff. auto. }
    { intros x Hx. apply EH. rewrite !in_app_iff. auto. }
    { apply cnt_len.
      - intros x. specialize (ND x). pose proof (uH_cnt hs x). cnts. lia.
      - intros x Hx. assert (Iu : In x (uidsH hs)) by (pose proof (uH_cnt hs x); mem).
        pose proof (proj1 (proj2 (proj2 ord_bound)) _ _ _ _ Oh Iu). lia. }
    rewrite E1. cbn [bind]. set (s1 := set_un s U1).
    destruct (IH h0 U0 s1 b0 b' (S i) lo) as (U2 & E2 & H2 & K2).
    { exact Hr. }
    { intros u Hu. cbn. rewrite K1; [apply EU; rewrite !in_app_iff; auto|]. specialize (ND u). mem. }
    { intros x Hx. apply EH. rewrite !in_app_iff. auto. }
    { intros j Lj. apply EC. lia. }
    { intros x. specialize (ND x). cnts. lia. }
    { exact Or. }
    rewrite E2. exists U2. split; [reflexivity|]. cbn [hp set_un un s1] in *. split.
    + cbn [hL]. split; [exact C'|]. split; [|split; [|exact H2]].
      * apply (frameT t h0 U0); [intros x Hx; apply EH; apply in_or_app; auto| |exact Ht].
        intros u Hu. rewrite K2, K1; [apply EU; apply in_or_app; auto| |]; specialize (ND u); mem.
      * apply (frameH hs (hp s) U1); [reflexivity| |exact H1]. intros u Hu. apply K2. specialize (ND u). mem.
    + intros u Nu. rewrite K2, K1; [reflexivity| |]; intros Q; apply Nu; rewrite !in_app_iff; auto.
Qed.

(** an array whose block has been replaced *)
Record grow (s0 s : gst) (L : loc) (B : option blk) (b0 b n : nat) (l0 ln : Ls) (d : D) : Prop := {
  g_un : forall u, ~ In u (uidsL l0) -> un s u = un s0 u;
  g_info : info s = info s0;
  g_tr : tr s = tr s0;
  g_hp : forall x, x < nb s0 -> x <> fst L -> x <> b0 -> hp s x = hp s0 x;
  g_L : hp s (fst L) = B;
  g_b : nb s0 <= b < nb s;
  g_els : exists els, hp s b = Some (BArr els) /\ length els = S n;
  g_l : hL (hp s) (un s) b 0 (catL l0 ln);
  g_d : hD (hp s) (un s) b n d;
  g_u : uidsL ln = [];
  g_o : forall lo hi, ordL lo hi ln;
  g_i : forall x, In x (idsL ln) -> nb s0 <= x < nb s;
  g_c : forall x, cnt x (b :: idsL ln) <= 1;
  g_old : forall x, In x (idsL l0 ++ idsD d) -> x < nb s0;
  g_n : lenL (catL l0 ln) <= n }.

Lemma grow_put : forall s0 s s' L B b0 b n l0 ln d t v, grow s0 s L B b0 b n l0 ln d -> fst L < nb s0 -> lenL (catL l0 ln) < n ->
  fresh s s' (b, lenL (catL l0 ln)) None t v -> grow s0 s' L B b0 b n l0 (catL ln (LCons t HNil LNil)) d.
Proof.
  intros s0 s s' L B b0 b n l0 ln d t v P LL Ln F. destruct P as [GU GF GR GH GL Gb (els & GE & LE) Gl Gd Gu GO GI GC GOLD GN].
  destruct F as [FX FH FU FO FV FI FC FL]. cbn [fst] in *. destruct FX as [X1 X2 X3 X4 X5].
  assert (NB : ~ In b (idsL ln)) by (specialize (GC b); rewrite cnt_cons, one_same in GC; mem).
  assert (SI : forall x, In x (idsL (catL l0 ln) ++ idsD d) -> hp s' x = hp s x).
  { intros x Hx. rewrite catL_ids, !in_app_iff in Hx. destruct (in_dec Nat.eq_dec x (idsL ln)) as [Q|Q].
    - apply X5; [apply GI; exact Q|]. intros ->. contradiction.
    - assert (x < nb s0) by (apply GOLD; apply in_or_app; tauto). apply X5; lia. }
  assert (SC : forall j, j <> lenL (catL l0 ln) -> cell (hp s') (b, j) = cell (hp s) (b, j)).
  { intros j Nj. apply (updcell_other _ _ (b, _) _ j FL Nj). }
  constructor.
  - intros u Nu. rewrite X1. apply GU. exact Nu.
  - congruence.
  - congruence.
  - intros x Lx N1 N2. rewrite X5 by lia. apply GH; assumption.
  - rewrite X5 by lia. exact GL.
  - lia.
  - destruct FL as (e1 & e2 & F1 & F2 & F3 & _). cbn [fst] in *. exists e2. split; [exact F2|]. rewrite GE in F1. injection F1 as <-. lia.
  - rewrite <- catL_assoc. apply catL_hL. split.
    + apply (frameL _ (hp s) (un s)); [intros x Hx; apply SI; apply in_or_app; auto|intros; apply X1|intros j Lj; apply SC; lia|exact Gl].
    + cbn [hL Nat.add]. split; [apply (updcell_cell _ _ _ _ FL)|]. split; [exact FH|]. split; exact I.
  - apply (frameD d (hp s) (un s)); [intros x Hx; apply SI; apply in_or_app; auto|intros; apply X1|apply SC; lia|exact Gd].
  - rewrite catL_uids. cbn [uidsL uidsH]. rewrite Gu, FU. auto.
  - intros lo hi. apply catL_ord. split; [apply GO|]. cbn [ordL ordH loH]. auto.
  - intros x Hx. rewrite catL_ids in Hx. cbn [idsL idsH] in Hx. rewrite !app_nil_r in Hx.
    apply in_app_or in Hx. destruct Hx as [Hx|Hx]; [specialize (GI x Hx)|specialize (FI x Hx)]; lia.
  - intros x. rewrite catL_ids. cbn [idsL idsH]. rewrite !app_nil_r. specialize (GC x). specialize (FC x). rewrite cnt_cons in *. cnts.
    destruct (in_dec Nat.eq_dec x (idsT t)) as [Ht|Nt].
    + specialize (FI x Ht). assert (one x b = 0) by (apply one_other; lia).
      assert (~ In x (idsL ln)) by (intros Q; specialize (GI x Q); lia). mem.
    + mem.
  - exact GOLD.
  - rewrite <- catL_assoc, catL_len. cbn [lenL]. lia.
Qed.
Definition grow_of (s0 : gst) (L : loc) (B : option blk) (b0 b n : nat) (l0 : Ls) (d : D) (s : gst) (l : Ls) : Prop :=
  exists ln, l = catL l0 ln /\ grow s0 s L B b0 b n l0 ln d.
Lemma grow_grows : forall s0 L B b0 b n l0 d, fst L < nb s0 -> grows (grow_of s0 L B b0 b n l0 d) b n.
Proof.
  intros s0 L B b0 b n l0 d LL. split.
  - intros s l (ln & -> & G). pose proof (g_b _ _ _ _ _ _ _ _ _ _ G). split; [lia|]. intros i Li.
    destruct (g_els _ _ _ _ _ _ _ _ _ _ G) as (els & E & LE). unfold cell. cbn [fst snd]. rewrite E.
    destruct (nth_error els i) eqn:Q; [eauto|]. apply nth_error_None in Q. lia.
  - intros s s' l t v (ln & -> & G) Ln F. exists (catL ln (LCons t HNil LNil)). split; [apply catL_assoc|].
    apply (grow_put s0 s s' L B b0 b n l0 ln d t v); assumption.
Qed.

(** realloc, then the records and the mark *)
Lemma alloc_grow : forall s L n b0 l0 d0 hs lo, at_loc s L (TArr b0 l0 d0) hs lo -> lenL l0 <= n ->
  exists s' b, G_Alloc_Array L n false s = Ret (b, s') /\ grow s s' L (hp s' (fst L)) b0 b n l0 LNil d0 /\
    updcell (hp s) (hp s') L (Elt (CArr n b) (hdu hs)).
Proof.
  intros s L n b0 l0 d0 hs lo [AC ((els & EB & LE) & HL & HD) AH (OL & OD) AOH AL ACN AU AB ALT] Ln.
  cbn [cof idsT uidsT] in *. unfold G_Alloc_Array. rewrite (rd_ok _ _ _ AC) by discriminate. cbn [bind e_c].
  assert (SD : sent d0 = 1) by (destruct d0; [destruct OD|reflexivity|reflexivity]).
  assert (Bb : b0 < nb s) by (apply AB; left; reflexivity).
  assert (NBL : fst L <> b0) by (intros Q; apply AL; left; congruence).
  assert (NB0 : ~ In b0 (idsL l0 ++ idsD d0)) by (specialize (ACN b0); rewrite cnt_cons, one_same in ACN; mem).
  unfold realloc. rewrite EB. cbn [malloc bind].
  assert (firstn (S n) els = els) as -> by (apply firstn_all2; lia).
  set (els1 := els ++ repeat junk (S n - length els)).
  set (s1 := set_hp _ _).
  assert (LE1 : length els1 = S n) by (unfold els1; rewrite app_length, repeat_length; lia).
  assert (H1 : forall x, x <> nb s -> x <> b0 -> hp s1 x = hp s x).
  { intros x N1 N2. unfold s1. cbn [hp set_hp]. rewrite upd_other by exact N2. apply upd_other. exact N1. }
  assert (Hb : hp s1 (nb s) = Some (BArr els1)).
  { unfold s1. cbn [hp set_hp]. rewrite upd_other by lia. apply upd_same. }
  assert (I1 : forall x, In x (idsL l0 ++ idsD d0) -> hp s1 x = hp s x).
  { intros x Hx. apply H1; [|intros ->; contradiction]. assert (x < nb s) by (apply AB; right; exact Hx). lia. }
  assert (K1 : forall j, j <= lenL l0 -> cell (hp s1) (nb s, j) = cell (hp s) (b0, j)).
  { intros j Lj. unfold cell. cbn [fst snd]. rewrite Hb, EB. unfold els1. apply nth_error_app1. lia. }
  destruct (retarget_all l0 (hp s) (un s) s1 b0 (nb s) 0 lo) as (U2 & E2 & HL2 & HU2); try assumption.
  { reflexivity. }
  { intros x Hx. apply I1. apply in_or_app. auto. }
  { intros j Lj. apply K1. lia. }
  { intros x. specialize (AU x). cnts. lia. }
  { cbn. apply (proj1 (proj2 ord_hi) _ _ (nb s)); [lia|exact OL]. }
  rewrite E2. cbn [bind]. set (s2 := set_un s1 U2) in *.
  assert (UD0 : uidsD d0 = []) by (destruct d0; [destruct OD|reflexivity|apply OD]).
  assert (HD2 : hD (hp s2) (un s2) (nb s) (lenL l0) d0).
  { apply (frameD d0 (hp s1) (un s)); [reflexivity|rewrite UD0; intros x []|reflexivity|].
    destruct d0 as [| |t]; cbn [hD] in *; [exact HD|rewrite K1 by lia; exact HD|]. destruct HD as (HD & Ht). split; [rewrite K1 by lia; exact HD|].
    apply (frameT t (hp s) (un s)); [intros x Hx; apply I1; apply in_or_app; auto|reflexivity|exact Ht]. }
  assert (LST : exists c, cell (hp s2) (nb s, lenL l0) = Some (Elt c None) /\ c <> CJunk).
  { destruct d0 as [| |t]; [destruct OD| |]; cbn [hD] in HD2; [exists CEnd; split; [exact HD2|discriminate]|]. exists (cof t). split; [apply HD2|apply cof_junk]. }
  destruct LST as (c & CL & NJ). rewrite (rd_ok _ _ _ CL NJ). cbn [bind].
  assert (CN : exists e, cell (hp s2) (nb s, n) = Some e).
  { unfold cell. cbn [fst snd s2 hp set_un]. rewrite Hb. destruct (nth_error els1 n) eqn:Q; [eauto|]. apply nth_error_None in Q. lia. }
  destruct CN as (en & CN). destruct (wr_ok (nb s, n) (Elt c None) s2 en CN) as (h3 & E3 & UC3 & HB3). rewrite E3. cbn [bind]. cbn [fst] in *.
  set (s3 := set_hp s2 h3) in *.
  assert (I3 : forall x, In x (idsL l0 ++ idsD d0) -> hp s3 x = hp s2 x).
  { intros x Hx. apply HB3. assert (x < nb s) by (apply AB; right; exact Hx). lia. }
  assert (C3 : forall j, j < n -> cell (hp s3) (nb s, j) = cell (hp s2) (nb s, j)).
  { intros j Lj. apply (updcell_other _ _ (nb s, n) _ j UC3). cbn. lia. }
  assert (HL3 : hL (hp s3) (un s3) (nb s) 0 l0).
  { apply (frameL l0 (hp s2) (un s2)); [intros x Hx; apply I3; apply in_or_app; auto|reflexivity|intros j Lj; apply C3; lia|exact HL2]. }
  assert (HD3 : hD (hp s3) (un s3) (nb s) n d0).
  { assert (Q := updcell_cell _ _ _ _ UC3). destruct d0 as [| |t]; [destruct OD| |]; cbn [hD] in *.
    - rewrite HD2 in CL. injection CL as <-. exact Q.
    - destruct HD2 as (HD2 & Ht2). rewrite HD2 in CL. injection CL as <-. split; [exact Q|].
      apply (frameT t (hp s2) (un s2)); [intros x Hx; apply I3; apply in_or_app; auto|reflexivity|exact Ht2]. }
  assert (EL3 : hp s3 (fst L) = hp s (fst L)).
  { change (h3 (fst L) = hp s (fst L)). rewrite HB3 by lia. change (hp s1 (fst L) = hp s (fst L)). apply H1; lia. }
  assert (CL3 : cell (hp s3) L = Some (Elt (CArr (lenL l0) b0) (hdu hs))) by (unfold cell; rewrite EL3; exact AC).
  unfold wr_c. rewrite (rd_ok _ _ _ CL3) by discriminate. cbn [bind e_u].
  destruct (wr_ok L (Elt (CArr n (nb s)) (hdu hs)) s3 _ CL3) as (h4 & -> & UC4 & HB4). cbn [bind].
  eexists. exists (nb s). split; [reflexivity|]. split; [|apply (updcell_eq (hp s3) h4); [exact UC4|symmetry; exact EL3|reflexivity]].
  set (s4 := set_hp s3 h4).
  assert (I4 : forall x, x <> fst L -> hp s4 x = hp s3 x) by (intros x Nx; apply HB4; exact Nx).
  assert (NLI : forall x, In x (idsL l0 ++ idsD d0) -> x <> fst L) by (intros x Hx ->; apply AL; right; exact Hx).
  constructor.
  - intros u Nu. change (U2 u = un s u). rewrite HU2 by exact Nu. reflexivity.
  - reflexivity.
  - reflexivity.
  - intros x Lx N1 N2. rewrite I4 by exact N1. change (h3 x = hp s x). rewrite HB3 by lia. change (hp s1 x = hp s x). apply H1; [lia|exact N2].
  - reflexivity.
  - cbn. lia.
  - rewrite I4 by lia. destruct UC3 as (e1 & e2 & F1 & F2 & F3 & _). cbn [fst] in *. exists e2. split; [exact F2|].
    change (hp s2 (nb s)) with (hp s1 (nb s)) in F1. rewrite Hb in F1. injection F1 as <-. lia.
  - rewrite catL_nil. apply (frameL l0 (hp s3) (un s3)); [intros x Hx; apply I4; apply NLI; apply in_or_app; auto|reflexivity| |exact HL3].
    intros j _. unfold cell. cbn [fst]. rewrite I4 by lia. reflexivity.
  - apply (frameD d0 (hp s3) (un s3)); [intros x Hx; apply I4; apply NLI; apply in_or_app; auto|reflexivity| |exact HD3].
    unfold cell. cbn [fst]. rewrite I4 by lia. reflexivity.
  - reflexivity.
  - intros lo' hi'. exact I.
  - intros x [].
  - intros x. cbn [idsL]. rewrite cnt_cons, cnt_nil. unfold one. destruct (x =? nb s); lia.
  - intros x Hx. apply AB. right. exact Hx.
  - rewrite catL_nil. exact Ln.
Qed.

(** the array at [L] has become larger: the elements [ln] are new *)
Definition enlarged (s s' : gst) (L : loc) (b0 : nat) (l0 : Ls) (d0 : D) (hs : Hs) (b : nat) (ln : Ls) : Prop :=
  grow s s' L (hp s' (fst L)) b0 b (lenL (catL l0 ln)) l0 ln d0 /\
  updcell (hp s) (hp s') L (Elt (CArr (lenL (catL l0 ln)) b) (hdu hs)).

Lemma assign_ext : forall x cp s L b0 l0 d0 hs lo, wf_src x -> at_loc s L (TArr b0 l0 d0) hs lo -> src_op x = Some G_ARRAY_EXTEND ->
  lenL l0 <= src_size x ->
  exists s' b ln, G_Assign_Element x L false cp s = Ret (AOk s') /\ enlarged s s' L b0 l0 d0 hs b ln /\
    AArr (valL (catL l0 ln)) (valD d0) = vassign false x (valT (TArr b0 l0 d0)).
Proof.
  intros x cp s L b0 l0 d0 hs lo W A EX Ln.
  assert (ST : exists s2 b, start_array L G_ARRAY_EXTEND (src_size x) false s = Ret (b, lenL l0, s2) /\
     grow s s2 L (hp s2 (fst L)) b0 b (src_size x) l0 LNil d0 /\ updcell (hp s) (hp s2) L (Elt (CArr (src_size x) b) (hdu hs))).
  { unfold start_array. rewrite (rd_ok _ _ _ (a_cell _ _ _ _ _ A)) by discriminate. cbn [bind e_c cof negb andb].
    destruct (alloc_grow s L (src_size x) b0 l0 d0 hs lo A Ln) as (s2 & b & -> & G & UC). cbn [bind]. exists s2, b. auto. }
  destruct ST as (s2 & b & ES & G & UC).
  assert (GR := grow_grows s L (hp s2 (fst L)) b0 b (src_size x) l0 d0 (a_lt _ _ _ _ _ A)).
  assert (G0 : grow_of s L (hp s2 (fst L)) b0 b (src_size x) l0 d0 s2 l0) by (exists LNil; rewrite catL_nil; auto).
  assert (FIN : forall s3 l' vs, grow_of s L (hp s2 (fst L)) b0 b (src_size x) l0 d0 s3 (catL l0 l') -> valL l' = vs -> lenL l0 + length vs = src_size x ->
    exists ln, enlarged s s3 L b0 l0 d0 hs b ln /\ valL ln = vs).
  { intros s3 l' vs (ln & EL & G3) V LV. exists ln.
    assert (VL : valL ln = valL l').
    { assert (Q := f_equal valL EL). rewrite !catL_val in Q. apply app_inv_head in Q. auto. }
    assert (LL : lenL (catL l0 ln) = src_size x) by (rewrite catL_len, <- (valL_len ln), VL, V; exact LV).
    split; [|congruence]. unfold enlarged. rewrite LL. rewrite (g_L _ _ _ _ _ _ _ _ _ _ G3). split; [exact G3|].
    apply (updcell_eq (hp s) (hp s2)); [exact UC|reflexivity|exact (g_L _ _ _ _ _ _ _ _ _ _ G3)]. }
  destruct x as [w|w|op n init|op l|]; try discriminate EX; cbn [src_op src_size] in *; injection EX as ->.
  - destruct W as (Wn & Wi). rewrite assign_N. rewrite (rd_ok _ _ _ (a_cell _ _ _ _ _ A)) by discriminate. cbn [bind]. destruct (Z.ltb_spec 0 n); [|lia].
    rewrite ES. cbn [bind is_auto].
    destruct (fill_ok init cp _ b _ (assignable_buildable _ (all_assignable _ Wi)) GR (Z.to_nat n - lenL l0) s2 l0 G0) as (s3 & l' & -> & G3 & V3); [lia|].
    cbn [abind finish]. destruct (FIN s3 l' _ G3 V3) as (ln & EN & VN); [rewrite repeat_length; lia|].
    exists s3, b, ln. split; [reflexivity|]. split; [exact EN|]. rewrite catL_val, VN. cbn [vassign arr_asg valT]. rewrite skipn_repeat, valL_len. reflexivity.
  - destruct W as (Wn & Wl).
    assert (BL : Forall buildable l).
    { clear - Wl. induction l as [|z zs IHz]; [constructor|]. constructor; [apply assignable_buildable; apply all_assignable; apply Wl|apply IHz; apply Wl]. }
    destruct l as [|y ys]; [contradiction|]. rewrite assign_L. rewrite (rd_ok _ _ _ (a_cell _ _ _ _ _ A)) by discriminate. cbn [bind].
    rewrite ES. cbn [bind is_auto].
    destruct (fill_list_ok (lenL l0) cp _ b _ (y :: ys) BL GR 0 s2 l0 G0) as (s3 & l' & -> & G3 & V3); [lia|lia|].
    rewrite Nat.sub_0_r in V3. cbn [abind finish]. destruct (FIN s3 l' _ G3 V3) as (ln & EN & VN); [rewrite map_length, skipn_length; lia|].
    exists s3, b, ln. split; [reflexivity|]. split; [exact EN|]. rewrite catL_val, VN. cbn [vassign arr_asg valT]. rewrite skipn_map, valL_len. reflexivity.
Qed.

(** an automatic array *)
Lemma copies_ok : forall t I b n lo hi, grows I b n ->
  (forall s l, I s l -> hT (hp s) (un s) t /\ cell (hp s) (b, n) = Some (Elt (cof t) None) /\ (forall x, In x (idsT t) -> x < nb s)) ->
  ordT lo hi t -> ~ In b (idsT t) -> (forall x, cnt x (idsT t) <= 1) ->
  forall k s l, I s l -> lenL l + k <= n ->
  exists s' l', loop (fun j => G_Copy_Element (b, j) (b, n)) k (lenL l) s = Ret s' /\ I s' (catL l l') /\ valL l' = repeat (valT t) k.
Proof.
  intros t I b n lo hi (G1 & G2) GT O NB ND. induction k as [|k IH]; intros s l P Ln.
  - exists s, LNil. rewrite catL_nil. auto.
  - cbn [loop]. destruct (G1 s l P) as (PB & PC). destruct (PC (lenL l)) as (e0 & C0); [lia|]. destruct (GT s l P) as (Ht & Cn & BB).
    destruct (proj1 copy_all t (S (nb s)) s (b, lenL l) (b, n) None e0 lo hi) as (s1 & t1 & E1 & F1); try assumption.
    { pose proof (dep_nb t (nb s) ND BB). lia. }
    unfold G_Copy_Element at 1. rewrite E1. cbn [bind].
    assert (P1 : I s1 (catL l (LCons t1 HNil LNil))) by (apply (G2 s s1 l t1 (valT t)); [exact P|lia|exact F1]).
    assert (E' : lenL (catL l (LCons t1 HNil LNil)) = S (lenL l)) by (rewrite catL_len; cbn; lia).
    destruct (IH s1 _ P1) as (s2 & l' & E2 & P2 & V2); [lia|]. rewrite E' in E2. rewrite E2.
    exists s2, (LCons t1 HNil l'). split; [reflexivity|]. split; [rewrite catL_assoc in P2; exact P2|].
    cbn [valL repeat]. rewrite V2, (f_v _ _ _ _ _ _ F1). reflexivity.
Qed.
