(** Proofs for C38, C39: freeing and copying the elements. *)
Require Import ZArith List Bool Arith Lia.
Require Import Verif.Heap_Model Verif.Gvar_Model Verif.Gvar_Spec Verif.Gvar_Tree.
Import ListNotations.
Open Scope nat_scope.

Record freed (re : bool) (s s' : gst) (B V : list nat) : Prop := {
  fr_same : same s s';
  fr_B : forall b, In b B -> hp s' b = None;
  fr_V : re = true -> forall u, In u V -> un s' u = option_map unvalid (un s u);
  fr_U : forall u, re = false \/ ~ In u V -> un s' u = un s u }.

Lemma updcell_id : forall h h' L e, cell h L = Some e -> h' (fst L) = h (fst L) -> updcell h h' L e.
Proof.
  intros h h' L e E Q. apply cell_some in E. destruct E as (els & E & N & LT). exists els, els. rewrite Q. split; [exact E|]. split; [exact E|].
  split; [reflexivity|]. split; [exact LT|]. intros j. destruct (Nat.eqb_spec j (snd L)); [subst; exact N|reflexivity].
Qed.
Lemma uH_cnt : forall h x, cnt x (uH h) <= cnt x (uidsH h).
Proof. intros h x. rewrite (proj1 (proj2 (proj2 hold_uC))). lia. Qed.
Lemma idsC_cnt : forall t x, cnt x (idsC t) <= cnt x (idsT t).
Proof. intros t x. rewrite (proj1 hold_C). lia. Qed.
Lemma uidsC_cnt : forall t x, cnt x (uidsC t) <= cnt x (uidsT t).
Proof. intros t x. rewrite (proj1 hold_uC). lia. Qed.
Lemma idsCL_cnt : forall l x, cnt x (idsCL l) <= cnt x (idsL l).
Proof. intros t x. rewrite (proj1 (proj2 hold_C)). lia. Qed.
Lemma uidsCL_cnt : forall l x, cnt x (uidsCL l) <= cnt x (uidsL l).
Proof. intros t x. rewrite (proj1 (proj2 hold_uC)). lia. Qed.
Ltac mem := repeat match goal with H : In _ _ |- _ => apply cnt_in in H | H : ~ In _ _ |- _ => apply cnt_notin in H end;
  try apply cnt_in; try apply cnt_notin; cnts; lia.

Definition free_spec (t : T) : Prop := forall re fuel s L hs lo,
  depT t < fuel -> cell (hp s) L = Some (Elt (cof t) (hdu hs)) -> hT (hp s) (un s) t -> hH (hp s) (un s) L None hs ->
  ordT lo (nb s) t -> ordH lo (nb s) hs ->
  ~ In (fst L) (idsT t) -> (forall x, cnt x (idsT t) <= 1) -> (forall x, cnt x (uidsT t) + cnt x (uidsH hs) <= 1) ->
  exists s', free_element fuel re L s = Ret s' /\ freed re s s' (idsC t) (uH hs ++ uidsC t) /\
    (forall b, ~ In b (idsC t) -> b <> fst L -> hp s' b = hp s b) /\
    updcell (hp s) (hp s') L (Elt (cof t) (if re then None else hdu hs)).
Definition free_specL (l : Ls) : Prop := forall re fuel s b i lo els,
  depL l < fuel -> hL (hp s) (un s) b i l -> hp s b = Some (BArr els) -> ordL lo (nb s) l ->
  ~ In b (idsL l) -> (forall x, cnt x (idsL l) <= 1) -> (forall x, cnt x (uidsL l) <= 1) ->
  exists s', loop (fun i => free_element fuel re (b, i)) (lenL l) i s = Ret s' /\ freed re s s' (idsCL l) (uidsCL l) /\
    (forall x, ~ In x (idsCL l) -> x <> b -> hp s' x = hp s x) /\
    exists els', hp s' b = Some (BArr els') /\ length els' = length els /\
      forall j, j < i \/ i + lenL l <= j -> nth_error els' j = nth_error els j.
Definition free_specD (d : D) : Prop := match d with DSome t => free_spec t | _ => True end.


(** the first part: the records of the element *)
Lemma reinit_ok : forall (re : bool) s L c hs lo, cell (hp s) L = Some (Elt c (hdu hs)) -> c <> CJunk -> hH (hp s) (un s) L None hs ->
  ordH lo (nb s) hs -> (forall x, cnt x (uidsH hs) <= 1) ->
  exists s' : gst, (if re then do s <- invalidate (nb s) (hdu hs) s; wr_u L None s else Ret s) = Ret s' /\
    freed re s s' [] (uH hs) /\ (forall b, b <> fst L -> hp s' b = hp s b) /\
    updcell (hp s) (hp s') L (Elt c (if re then None else hdu hs)).
Proof.
  intros [|] s L c hs lo C NJ Hh O ND.
  - destruct (invalidate_ok hs (hp s) (un s) L None (nb s) s Hh) as (U' & E & A & B).
    + intros x. pose proof (uH_cnt hs x). specialize (ND x). lia.
    + reflexivity.
    + apply cnt_len.
      * intros x. pose proof (uH_cnt hs x). specialize (ND x). lia.
      * intros x Hx. assert (Iu : In x (uidsH hs)) by (pose proof (uH_cnt hs x); mem).
        pose proof (proj1 (proj2 (proj2 ord_bound)) _ _ _ _ O Iu). lia.
    + rewrite E. cbn [bind]. unfold wr_u. rewrite (rd_ok L (set_un s U') (Elt c (hdu hs)) C NJ). cbn [bind e_c].
      destruct (wr_ok L (Elt c None) (set_un s U') _ C) as (h' & -> & UC & HB).
      eexists. split; [reflexivity|]. split; [|split; [exact HB|exact UC]].
      constructor; cbn; [constructor; reflexivity|intros b []|intros _; exact A|].
      intros u [N|N]; [discriminate N|]. apply B. exact N.
  - exists s. split; [reflexivity|]. split; [|split; [reflexivity|apply updcell_id; [exact C|reflexivity]]].
    constructor; [apply same_refl|intros b []|discriminate|reflexivity].
Qed.

Lemma free_all : (forall t, free_spec t) /\ (forall l, free_specL l) /\ (forall h : Hs, True) /\ (forall d, free_specD d).
Proof.
  apply tree_ind; try (intros; exact I).
  - (* TWord *)
    intros w re fuel s L hs lo F C _ Hh _ O NB ND UD. destruct fuel as [|fuel]; [lia|]. cbn [free_element]. cbn [cof] in *.
    rewrite (rd_ok L s _ C) by discriminate. cbn [bind e_u e_c].
    destruct (reinit_ok re s L _ hs lo C) as (s' & -> & FR & HB & UC); [discriminate|exact Hh|exact O|intros x; specialize (UD x); lia|].
    cbn [bind]. exists s'. split; [reflexivity|]. cbn [uidsC]. rewrite app_nil_r. split; [exact FR|]. split; [intros b _; apply HB|exact UC].
  - (* TCopy *)
    intros b w re fuel s L hs lo F C Ht Hh _ O NB ND UD. destruct fuel as [|fuel]; [lia|]. cbn [free_element]. cbn [cof] in *.
    rewrite (rd_ok L s _ C) by discriminate. cbn [bind e_u e_c].
    destruct (reinit_ok re s L _ hs lo C) as (s1 & -> & FR & HB & UC); [discriminate|exact Hh|exact O|intros x; specialize (UD x); lia|].
    cbn [bind]. cbn [hT idsT] in *. assert (NE : b <> fst L) by (intros ->; apply NB; left; reflexivity).
    unfold free. rewrite HB, Ht by exact NE. eexists. split; [reflexivity|]. cbn [uidsC idsC]. rewrite app_nil_r.
    split; [|split].
    + destruct FR as [FS _ FV FU]. constructor; cbn; [constructor; apply FS| |exact FV|exact FU]. intros x [<-|[]]. apply upd_same.
    + intros x Nx Lx. cbn. rewrite upd_other by (intros ->; apply Nx; left; reflexivity). apply HB. exact Lx.
    + apply (updcell_eq (hp s) (hp s1)); [exact UC|reflexivity|]. cbn. apply upd_other. congruence.
  - (* TArr *)
    intros b l IHl d IHd re fuel s L hs lo F C Ht Hh (OL & OD) O NB ND UD. destruct fuel as [|fuel]; [lia|]. cbn [free_element].
    cbn [depT] in F.
    rewrite (rd_ok L s _ C) by discriminate. cbn [bind e_u e_c].
    destruct (reinit_ok re s L _ hs lo C) as (s1 & -> & FR1 & HB1 & UC1); [discriminate|exact Hh|exact O|intros x; specialize (UD x); lia|].
    cbn [bind cof]. destruct Ht as ((els & EB & LE) & HL & HD). cbn [idsT uidsT] in *.
    assert (NE : b <> fst L) by (intros ->; apply NB; left; reflexivity).
    assert (NBl : ~ In b (idsL l ++ idsD d)) by (specialize (ND b); rewrite cnt_cons, one_same in ND; apply cnt_notin; lia).
    assert (NLl : ~ In (fst L) (idsL l ++ idsD d)) by (intros Q; apply NB; right; exact Q).
    assert (EB1 : hp s1 b = Some (BArr els)) by (rewrite HB1 by exact NE; exact EB).
    assert (EN1 : nb s1 = nb s) by (apply FR1).
    assert (U1 : forall u, In u (uidsL l ++ uidsD d) -> un s1 u = un s u).
    { intros u Hu. apply (fr_U _ _ _ _ _ FR1). right. specialize (UD u). pose proof (uH_cnt hs u). mem. }
    destruct (IHl re fuel s1 b 0 lo els) as (s2 & -> & FR2 & HB2 & els2 & EB2 & LE2 & N2).
    { lia. }
    { apply (frameL l (hp s) (un s)); [intros x Hx; apply HB1; intros ->; apply NLl; apply in_or_app; left; exact Hx| | |exact HL].
      - intros x Hx. apply U1. apply in_or_app. left. exact Hx.
      - intros j _. unfold cell. cbn [fst]. rewrite EB, EB1. reflexivity. }
    { exact EB1. }
    { rewrite EN1. exact OL. }
    { mem. }
    { intros x. specialize (ND x). rewrite cnt_cons in ND. cnts. lia. }
    { intros x. specialize (UD x). cnts. lia. }
    cbn [bind].
    assert (CD : cell (hp s2) (b, lenL l) = cell (hp s) (b, lenL l)).
    { unfold cell. cbn [fst snd]. rewrite EB, EB2. apply N2. lia. }
    assert (EN2 : nb s2 = nb s) by (rewrite (sm_nb _ _ (fr_same _ _ _ _ _ FR2)); exact EN1).
    destruct d as [| |t]; [destruct OD| |].
    + cbn [hD] in HD. rewrite <- CD in HD. rewrite (rd_ok _ s2 _ HD) by discriminate. cbn [bind e_c].
      unfold free. rewrite EB2. eexists. split; [reflexivity|]. cbn [idsC uidsC idsCD uidsCD]. rewrite !app_nil_r. split; [|split].
      * constructor; cbn.
        -- apply (same_trans s s1); [apply FR1|]. apply (same_trans s1 s2); [apply FR2|]. constructor; reflexivity.
        -- intros x [<-|Hx]; [apply upd_same|]. rewrite upd_other.
           ++ apply (fr_B _ _ _ _ _ FR2). exact Hx.
           ++ intros ->. pose proof (idsCL_cnt l b). mem.
        -- intros ER u Hu. apply in_app_or in Hu. destruct Hu as [Hu|Hu].
           ++ rewrite (fr_U _ _ _ _ _ FR2), (fr_V _ _ _ _ _ FR1 ER u Hu); [reflexivity|]. right.
              pose proof (uidsCL_cnt l u). pose proof (uH_cnt hs u). specialize (UD u). mem.
           ++ rewrite (fr_V _ _ _ _ _ FR2 ER u Hu), U1; [reflexivity|]. pose proof (uidsCL_cnt l u). mem.
        -- intros u Hu. rewrite (fr_U _ _ _ _ _ FR2), (fr_U _ _ _ _ _ FR1); [reflexivity| |];
             (destruct Hu as [Hu|Hu]; [left; exact Hu|right; intros Q; apply Hu; apply in_or_app; auto]).
      * intros x Nx Lx. cbn. rewrite upd_other by (intros ->; apply Nx; left; reflexivity). rewrite HB2.
        -- apply HB1. exact Lx.
        -- intros Q. apply Nx. right. exact Q.
        -- intros ->. apply Nx. left. reflexivity.
      * apply (updcell_eq (hp s) (hp s1)); [exact UC1|reflexivity|]. cbn. rewrite upd_other by congruence. apply HB2; [|congruence].
        pose proof (idsCL_cnt l (fst L)). mem.
    + cbn [hD] in HD. destruct HD as (HD & Ht). cbn [ordD] in OD. destruct OD as (UT & OT). cbn [idsD uidsD depD] in *.
      rewrite <- CD in HD. rewrite (rd_ok _ s2 _ HD) by apply cof_junk. cbn [bind e_c].
      destruct (IHd re fuel s2 (b, lenL l) HNil lo) as (s3 & E3 & FR3 & HB3 & UC3).
      { lia. }
      { exact HD. }
      { apply (frameT t (hp s) (un s)); [| |exact Ht].
        - intros x Hx. rewrite HB2; [apply HB1; intros ->; apply NLl; apply in_or_app; right; exact Hx| |].
          + pose proof (idsCL_cnt l x). specialize (ND x). rewrite cnt_cons in ND. mem.
          + intros ->. mem.
        - rewrite UT. intros u []. }
      { exact I. }
      { rewrite EN2. exact OT. }
      { exact I. }
      { cbn [fst]. mem. }
      { intros x. specialize (ND x). rewrite cnt_cons in ND. cnts. lia. }
      { intros x. rewrite UT. cbn [uidsH]. cnts. lia. }
      assert (match cof t with CEnd => Ret s2 | _ => free_element fuel re (b, lenL l) s2 end = Ret s3) as ->.
      { rewrite E3. destruct t; reflexivity. }
      cbn [bind]. destruct UC3 as (a1 & a2 & F1 & F2 & _). cbn [fst] in *.
      unfold free. rewrite F2. eexists. split; [reflexivity|]. cbn [idsC uidsC idsCD uidsCD].
      assert (UCT : uidsC t = []).
      { destruct (uidsC t) as [|v q] eqn:Q; [reflexivity|]. exfalso. pose proof (uidsC_cnt t v). rewrite Q, UT in H.
        rewrite cnt_cons, one_same, cnt_nil in H. lia. }
      rewrite UCT, app_nil_r. cbn [uH] in FR3. rewrite UCT in FR3. split; [|split].
      * constructor; cbn.
        -- apply (same_trans s s1); [apply FR1|]. apply (same_trans s1 s2); [apply FR2|]. apply (same_trans s2 s3); [apply FR3|]. constructor; reflexivity.
        -- intros x [<-|Hx]; [apply upd_same|].
           assert (NX : x <> b).
           { intros ->. pose proof (idsCL_cnt l b). pose proof (idsC_cnt t b). mem. }
           rewrite upd_other by exact NX. apply in_app_or in Hx. destruct Hx as [Hx|Hx].
           ++ rewrite HB3; [apply (fr_B _ _ _ _ _ FR2); exact Hx| |exact NX].
              pose proof (idsCL_cnt l x). pose proof (idsC_cnt t x). specialize (ND x). rewrite cnt_cons in ND. mem.
           ++ apply (fr_B _ _ _ _ _ FR3). exact Hx.
        -- intros ER u Hu. rewrite (fr_U _ _ _ _ _ FR3) by (right; intros []). apply in_app_or in Hu. destruct Hu as [Hu|Hu].
           ++ rewrite (fr_U _ _ _ _ _ FR2), (fr_V _ _ _ _ _ FR1 ER u Hu); [reflexivity|]. right.
              pose proof (uidsCL_cnt l u). pose proof (uH_cnt hs u). specialize (UD u). mem.
           ++ rewrite (fr_V _ _ _ _ _ FR2 ER u Hu), U1; [reflexivity|]. pose proof (uidsCL_cnt l u). mem.
        -- intros u Hu. rewrite (fr_U _ _ _ _ _ FR3) by (right; intros []). rewrite (fr_U _ _ _ _ _ FR2), (fr_U _ _ _ _ _ FR1); [reflexivity| |];
             (destruct Hu as [Hu|Hu]; [left; exact Hu|right; intros Q; apply Hu; apply in_or_app; auto]).
      * intros x Nx Lx. cbn. assert (NX : x <> b) by (intros ->; apply Nx; left; reflexivity). rewrite upd_other by exact NX. rewrite HB3, HB2.
        -- apply HB1. exact Lx.
        -- intros Q. apply Nx. right. apply in_or_app. left. exact Q.
        -- exact NX.
        -- intros Q. apply Nx. right. apply in_or_app. right. exact Q.
        -- exact NX.
      * apply (updcell_eq (hp s) (hp s1)); [exact UC1|reflexivity|]. cbn. rewrite upd_other by congruence.
        rewrite HB3; [apply HB2; [|congruence]| |congruence].
        -- pose proof (idsCL_cnt l (fst L)). mem.
        -- pose proof (idsC_cnt t (fst L)). mem.
  - (* LNil *)
    intros re fuel s b i lo els F _ E _ _ _ _. exists s. split; [reflexivity|]. split; [constructor; [apply same_refl|intros x []|intros _ x []|reflexivity]|].
    split; [reflexivity|]. exists els. auto.
  - (* LCons *)
    intros t IHt hs _ r IHr re fuel s b i lo els F (C & Ht & Hh & Hr) EB (Ot & Oh & Or) NB ND UD.
    cbn [idsL uidsL depL lenL loop idsCL uidsCL] in *.
    assert (Ot' : ordT lo (nb s) t).
    { apply (proj1 ord_lo t lo (loH lo hs)); [apply (loH_le lo (nb s)); exact Oh|exact Ot]. }
    destruct (IHt re fuel s (b, i) hs lo) as (s1 & -> & FR1 & HB1 & UC1); try assumption.
    { lia. }
    { cbn [fst]. mem. }
    { intros x. specialize (ND x). cnts. lia. }
    { intros x. specialize (UD x). cnts. lia. }
    cbn [bind]. destruct UC1 as (a1 & els1 & F1 & EB1 & LE1 & LT1 & N1). cbn [fst snd] in *. rewrite EB in F1. injection F1 as <-.
    assert (EN1 : nb s1 = nb s) by (apply FR1).
    destruct (IHr re fuel s1 b (S i) lo els1) as (s2 & -> & FR2 & HB2 & els2 & EB2 & LE2 & N2).
    { lia. }
    { apply (frameL r (hp s) (un s)); [| | |exact Hr].
      - intros x Hx. apply HB1; [pose proof (idsC_cnt t x); specialize (ND x); mem|]. intros ->. mem.
      - intros x Hx. apply (fr_U _ _ _ _ _ FR1). right. pose proof (uidsC_cnt t x). pose proof (uH_cnt hs x). specialize (UD x). mem.
      - intros j Lj. unfold cell. cbn [fst snd]. rewrite EB, EB1, N1. destruct (Nat.eqb_spec j i); [lia|reflexivity]. }
    { exact EB1. }
    { rewrite EN1. exact Or. }
    { mem. }
    { intros x. specialize (ND x). cnts. lia. }
    { intros x. specialize (UD x). cnts. lia. }
    exists s2. split; [reflexivity|]. split; [|split].
    + constructor.
      * apply (same_trans s s1); [apply FR1|apply FR2].
      * intros x Hx. apply in_app_or in Hx. destruct Hx as [Hx|Hx].
        -- rewrite HB2; [apply (fr_B _ _ _ _ _ FR1); exact Hx| |].
           ++ pose proof (idsC_cnt t x). pose proof (idsCL_cnt r x). specialize (ND x). mem.
           ++ intros ->. pose proof (idsC_cnt t b). mem.
        -- apply (fr_B _ _ _ _ _ FR2). exact Hx.
      * intros ER u Hu. rewrite app_assoc in Hu. apply in_app_or in Hu. destruct Hu as [Hu|Hu].
        -- rewrite (fr_U _ _ _ _ _ FR2); [apply (fr_V _ _ _ _ _ FR1 ER); exact Hu|]. right.
           pose proof (uidsC_cnt t u). pose proof (uidsCL_cnt r u). pose proof (uH_cnt hs u). specialize (UD u). mem.
        -- rewrite (fr_V _ _ _ _ _ FR2 ER u Hu), (fr_U _ _ _ _ _ FR1); [reflexivity|]. right.
           pose proof (uidsC_cnt t u). pose proof (uidsCL_cnt r u). pose proof (uH_cnt hs u). specialize (UD u). mem.
      * intros u Hu. rewrite (fr_U _ _ _ _ _ FR2), (fr_U _ _ _ _ _ FR1); [reflexivity| |];
          (destruct Hu as [Hu|Hu]; [left; exact Hu|right; mem]).
    + intros x Nx Lx. rewrite HB2, HB1; [reflexivity|mem|exact Lx|mem|exact Lx].
    + exists els2. split; [exact EB2|]. split; [lia|]. intros j Lj. rewrite N2 by lia. rewrite N1. destruct (Nat.eqb_spec j i); [lia|reflexivity].
  - (* DSome *) intros t IHt. exact IHt.
Qed.

Lemma G_Free_ok : forall t re s L hs lo,
  cell (hp s) L = Some (Elt (cof t) (hdu hs)) -> hT (hp s) (un s) t -> hH (hp s) (un s) L None hs ->
  ordT lo (nb s) t -> ordH lo (nb s) hs ->
  ~ In (fst L) (idsT t) -> (forall x, cnt x (idsT t) <= 1) -> (forall x, cnt x (uidsT t) + cnt x (uidsH hs) <= 1) ->
  (forall x, In x (idsT t) -> x < nb s) ->
  exists s', G_Free_Element re L s = Ret s' /\ freed re s s' (idsC t) (uH hs ++ uidsC t) /\
    (forall b, ~ In b (idsC t) -> b <> fst L -> hp s' b = hp s b) /\
    updcell (hp s) (hp s') L (Elt (cof t) (if re then None else hdu hs)).
Proof.
  intros t re s L hs lo C Ht Hh Ot Oh NB ND UD BB. apply (proj1 free_all t re (S (nb s)) s L hs lo); try assumption.
  pose proof (dep_nb t (nb s) ND BB). lia.
Qed.

(** * New values *)
Record ext (s s' : gst) (b : nat) : Prop := {
  x_un : forall u, un s' u = un s u;
  x_info : info s' = info s;
  x_tr : tr s' = tr s;
  x_nb : nb s <= nb s';
  x_hp : forall x, x < nb s -> x <> b -> hp s' x = hp s x }.
Lemma ext_refl : forall s b, ext s s b.
Proof. constructor; auto. Qed.
Lemma ext_trans : forall a b c n, ext a b n -> ext b c n -> ext a c n.
Proof.
  intros a b c n [A1 A2 A3 A4 A5] [B1 B2 B3 B4 B5]. constructor; try congruence; [lia|].
  intros x Lx Nx. rewrite B5 by (assumption || lia). apply A5; assumption.
Qed.
Record fresh (s s' : gst) (L : loc) (uo : option nat) (t : T) (v : av) : Prop := {
  f_x : ext s s' (fst L);
  f_h : hT (hp s') (un s') t;
  f_u : uidsT t = [];
  f_o : forall lo hi, ordT lo hi t;
  f_v : valT t = v;
  f_i : forall x, In x (idsT t) -> nb s <= x < nb s';
  f_c : forall x, cnt x (idsT t) <= 1;
  f_L : updcell (hp s) (hp s') L (Elt (cof t) uo) }.

Fixpoint catL (l r : Ls) : Ls := match l with LNil => r | LCons t h l => LCons t h (catL l r) end.
Lemma catL_len : forall l r, lenL (catL l r) = lenL l + lenL r.
Proof. induction l; intros; cbn; auto. Qed.
Lemma catL_nil : forall l, catL l LNil = l.
Proof. induction l; cbn; congruence. Qed.
Lemma catL_assoc : forall a b c, catL (catL a b) c = catL a (catL b c).
Proof. induction a; intros; cbn; [reflexivity|]. rewrite IHa. reflexivity. Qed.
Lemma catL_ids : forall l r, idsL (catL l r) = idsL l ++ idsL r.
Proof. induction l; intros; cbn; [reflexivity|]. rewrite IHl, !app_assoc. reflexivity. Qed.
Lemma catL_uids : forall l r, uidsL (catL l r) = uidsL l ++ uidsL r.
Proof. induction l; intros; cbn; [reflexivity|]. rewrite IHl, !app_assoc. reflexivity. Qed.
Lemma catL_val : forall l r, valL (catL l r) = valL l ++ valL r.
Proof. induction l; intros; cbn; [reflexivity|]. rewrite IHl. reflexivity. Qed.
Lemma catL_hL : forall l r h U b i, hL h U b i (catL l r) <-> hL h U b i l /\ hL h U b (i + lenL l) r.
Proof.
  induction l as [|t0 h0 l IH]; intros r h U b i; cbn [catL hL lenL]; [rewrite Nat.add_0_r; tauto|].
  rewrite IH. replace (i + S (lenL l)) with (S i + lenL l) by lia. tauto.
Qed.
Lemma catL_ord : forall l r lo hi, ordL lo hi (catL l r) <-> ordL lo hi l /\ ordL lo hi r.
Proof. induction l as [|t0 h0 l IH]; intros r lo hi; cbn [catL ordL]; [tauto|]. rewrite IH. tauto. Qed.
Lemma valL_len : forall l, length (valL l) = lenL l.
Proof. induction l; cbn; congruence. Qed.

(** an array being made: the first elements and the mark at its end *)
Record prog (s0 s : gst) (L : loc) (B : option blk) (b n : nat) (l : Ls) (d : D) : Prop := {
  p_x : ext s0 s (fst L);
  p_L : hp s (fst L) = B;
  p_b : nb s0 <= b < nb s;
  p_els : exists els, hp s b = Some (BArr els) /\ length els = S n;
  p_l : hL (hp s) (un s) b 0 l;
  p_d : hD (hp s) (un s) b n d;
  p_u : uidsL l = [] /\ uidsD d = [];
  p_o : forall lo hi, ordL lo hi l /\ (d = DNone \/ ordD lo hi d);
  p_i : forall x, In x (idsL l ++ idsD d) -> nb s0 <= x < nb s;
  p_c : forall x, cnt x (b :: idsL l ++ idsD d) <= 1;
  p_n : lenL l <= n }.

(** after writing in the block [b] itself *)
Lemma prog_put : forall s0 s s' L B b n l d t v, prog s0 s L B b n l d -> fst L < nb s0 -> lenL l < n ->
  fresh s s' (b, lenL l) None t v -> prog s0 s' L B b n (catL l (LCons t HNil LNil)) d.
Proof.
  intros s0 s s' L B b n l d t v P LL Ln F. destruct P as [X PL Pb (els & PE & LE) Pl Pd (PU1 & PU2) PO PI PC PN].
  destruct F as [FX FH FU FO FV FI FC FL]. cbn [fst] in *. destruct FX as [X1 X2 X3 X4 X5].
  assert (NB : ~ In b (idsL l ++ idsD d)) by (specialize (PC b); rewrite cnt_cons, one_same in PC; mem).
  pose proof X as [Y1 Y2 Y3 Y4 Y5].
  assert (SI : forall x, In x (idsL l ++ idsD d) -> hp s' x = hp s x).
  { intros x Hx. apply X5; [apply PI; exact Hx|]. intros ->. contradiction. }
  assert (SC : forall j, j <> lenL l -> cell (hp s') (b, j) = cell (hp s) (b, j)).
  { intros j Nj. apply (updcell_other _ _ (b, lenL l) _ j FL Nj). }
  constructor.
  - constructor; try congruence; [lia|]. intros x Lx Nx. rewrite X5 by lia. apply Y5; assumption.
  - rewrite X5 by lia. exact PL.
  - lia.
  - destruct FL as (e1 & e2 & F1 & F2 & F3 & _). cbn [fst] in *. exists e2. split; [exact F2|]. rewrite PE in F1. injection F1 as <-. lia.
  - apply catL_hL. split.
    + apply (frameL l (hp s) (un s)); [intros x Hx; apply SI; apply in_or_app; auto|intros; apply X1|intros j Lj; apply SC; lia|exact Pl].
    + cbn [hL Nat.add]. split; [apply (updcell_cell _ _ _ _ FL)|]. split; [exact FH|]. split; exact I.
  - apply (frameD d (hp s) (un s)); [intros x Hx; apply SI; apply in_or_app; auto|intros; apply X1|apply SC; lia|exact Pd].
  - rewrite catL_uids. cbn [uidsL uidsH]. rewrite PU1, FU. auto.
  - intros lo hi. destruct (PO lo hi) as (O1 & O2). split; [|exact O2]. apply catL_ord. split; [exact O1|]. cbn [ordL ordH loH]. auto.
  - intros x Hx. rewrite catL_ids in Hx. cbn [idsL idsH] in Hx. rewrite !app_nil_r in Hx.
    destruct (in_dec Nat.eq_dec x (idsT t)) as [Ht|Nt].
    + specialize (FI x Ht). lia.
    + assert (Hx' : In x (idsL l ++ idsD d)) by mem. specialize (PI x Hx'). lia.
  - intros x. rewrite catL_ids. cbn [idsL idsH]. rewrite !app_nil_r. specialize (PC x). specialize (FC x). rewrite cnt_cons in *. cnts.
    destruct (in_dec Nat.eq_dec x (idsT t)) as [Ht|Nt].
    + specialize (FI x Ht). assert (one x b = 0) by (apply one_other; lia).
      assert (~ In x (idsL l ++ idsD d)) by (intros Q; specialize (PI x Q); lia). mem.
    + mem.
  - rewrite catL_len. cbn [lenL]. lia.
Qed.
Lemma prog_sent : forall s0 s s' L B b n l d t v, prog s0 s L B b n l d -> fst L < nb s0 ->
  fresh s s' (b, n) None t v -> prog s0 s' L B b n l (DSome t).
Proof.
  intros s0 s s' L B b n l d t v P LL F. destruct P as [X PL Pb (els & PE & LE) Pl Pd (PU1 & PU2) PO PI PC PN].
  destruct F as [FX FH FU FO FV FI FC FL]. cbn [fst] in *. destruct FX as [X1 X2 X3 X4 X5].
  assert (NB : ~ In b (idsL l ++ idsD d)) by (specialize (PC b); rewrite cnt_cons, one_same in PC; mem).
  pose proof X as [Y1 Y2 Y3 Y4 Y5].
  assert (SI : forall x, In x (idsL l ++ idsD d) -> hp s' x = hp s x).
  { intros x Hx. apply X5; [apply PI; exact Hx|]. intros ->. contradiction. }
  assert (SC : forall j, j <> n -> cell (hp s') (b, j) = cell (hp s) (b, j)).
  { intros j Nj. apply (updcell_other _ _ (b, n) _ j FL Nj). }
  constructor.
  - constructor; try congruence; [lia|]. intros x Lx Nx. rewrite X5 by lia. apply Y5; assumption.
  - rewrite X5 by lia. exact PL.
  - lia.
  - destruct FL as (e1 & e2 & F1 & F2 & F3 & _). cbn [fst] in *. exists e2. split; [exact F2|]. rewrite PE in F1. injection F1 as <-. lia.
  - apply (frameL l (hp s) (un s)); [intros x Hx; apply SI; apply in_or_app; auto|intros; apply X1|intros j Lj; apply SC; lia|exact Pl].
  - cbn [hD]. split; [apply (updcell_cell _ _ _ _ FL)|exact FH].
  - cbn [uidsD]. auto.
  - intros lo hi. destruct (PO lo hi) as (O1 & O2). split; [exact O1|]. right. cbn [ordD]. auto.
  - intros x Hx. cbn [idsD] in Hx.
    destruct (in_dec Nat.eq_dec x (idsT t)) as [Ht|Nt].
    + specialize (FI x Ht). lia.
    + assert (Hx' : In x (idsL l ++ idsD d)) by mem. specialize (PI x Hx'). lia.
  - intros x. cbn [idsD]. specialize (PC x). specialize (FC x). rewrite cnt_cons in *. cnts.
    destruct (in_dec Nat.eq_dec x (idsT t)) as [Ht|Nt].
    + specialize (FI x Ht). assert (one x b = 0) by (apply one_other; lia).
      assert (~ In x (idsL l ++ idsD d)) by (intros Q; specialize (PI x Q); lia). mem.
    + mem.
  - exact PN.
Qed.
Lemma prog_cut : forall s0 s L B b n l d, prog s0 s L B b n l d -> prog s0 s L B b n LNil d.
Proof.
  intros s0 s L B b n l d [X PL Pb PE Pl Pd (PU1 & PU2) PO PI PC PN]. constructor; auto; cbn [idsL app lenL]; try lia.
  - exact I.
  - intros lo hi. destruct (PO lo hi). split; [exact I|assumption].
  - intros x Hx. apply PI. apply in_or_app. right. exact Hx.
  - intros x. specialize (PC x). rewrite cnt_cons in *. cnts. lia.
Qed.
(** the mark [CEnd] *)
Lemma prog_end : forall s0 s L B b n l, prog s0 s L B b n l DNone -> fst L < nb s0 ->
  exists s', wr (b, n) (Elt CEnd None) s = Ret s' /\ prog s0 s' L B b n l DEnd.
Proof.
  intros s0 s L B b n l P LL. destruct P as [X PL Pb (els & PE & LE) Pl Pd (PU1 & PU2) PO PI PC PN].
  assert (C : exists e0, cell (hp s) (b, n) = Some e0).
  { unfold cell. cbn [fst snd]. rewrite PE. destruct (nth_error els n) eqn:Q; [eauto|]. apply nth_error_None in Q. lia. }
  destruct C as (e0 & C). destruct (wr_ok (b, n) (Elt CEnd None) s e0 C) as (h' & -> & UC & HB). eexists. split; [reflexivity|].
  cbn [fst] in *. cbn [idsD] in *. rewrite app_nil_r in *.
  assert (NB : ~ In b (idsL l)) by (specialize (PC b); rewrite cnt_cons, one_same in PC; mem).
  constructor; cbn [hp un nb info tr set_hp]; auto.
  - destruct X. constructor; cbn; auto. intros x Lx Nx. rewrite HB by lia. auto.
  - rewrite HB by lia. exact PL.
  - destruct UC as (e1 & e2 & F1 & F2 & F3 & _). cbn [fst] in *. exists e2. split; [exact F2|]. rewrite PE in F1. injection F1 as <-. lia.
  - apply (frameL l (hp s) (un s)); [intros x Hx; apply HB; intros ->; contradiction|reflexivity|intros j Lj|exact Pl].
    apply (updcell_other _ _ (b, n) _ j UC). cbn. lia.
  - apply (updcell_cell _ _ _ _ UC).
  - intros lo hi. destruct (PO lo hi). split; [assumption|]. right. exact I.
  - intros x Hx. apply PI. cbn [idsD] in Hx. rewrite app_nil_r in Hx. exact Hx.
  - cbn [idsD]. intros x. rewrite app_nil_r. apply PC.
Qed.
Lemma prog_start : forall s L n, fst L < nb s ->
  prog s (snd (malloc (BArr (repeat junk (S n))) s)) L (hp s (fst L)) (nb s) n LNil DNone.
Proof.
  intros s L n LL. cbn [malloc snd]. constructor; cbn [hp un nb info tr idsL idsD app lenL hL hD uidsL uidsD]; auto; try lia.
  - constructor; cbn; auto. intros x Lx _. apply upd_other. lia.
  - apply upd_other. lia.
  - exists (repeat junk (S n)). split; [apply upd_same|]. apply repeat_length.
  - intros lo hi. split; [exact I|]. left. reflexivity.
  - intros x [].
  - intros x. rewrite cnt_cons, cnt_nil. unfold one. destruct (x =? nb s); lia.
Qed.
(** *L = the array *)
Lemma prog_L : forall s0 s L B b n l d e s', prog s0 s L B b n l d -> fst L < nb s0 ->
  wr L e s = Ret s' -> prog s0 s' L (hp s' (fst L)) b n l d.
Proof.
  intros s0 s L B b n l d e s' P LL W. destruct P as [X PL Pb (els & PE & LE) Pl Pd (PU1 & PU2) PO PI PC PN].
  unfold wr in W. destruct (hp s (fst L)) as [[w|k]|]; try discriminate W. destruct (snd L <? length k); [|discriminate W]. injection W as <-.
  assert (HB : forall x, nb s0 <= x -> upd (hp s) (fst L) (Some (BArr (set_nth k (snd L) e))) x = hp s x) by (intros x Lx; apply upd_other; lia).
  constructor; cbn [hp un nb info tr set_hp]; auto.
  - destruct X. constructor; cbn; auto. intros x Lx Nx. rewrite upd_other by exact Nx. auto.
  - exists els. rewrite HB by lia. auto.
  - apply (frameL l (hp s) (un s)); [intros x Hx; apply HB; apply PI; apply in_or_app; auto|reflexivity|intros j Lj|exact Pl].
    unfold cell. cbn [fst]. rewrite HB by lia. reflexivity.
  - apply (frameD d (hp s) (un s)); [intros x Hx; apply HB; apply PI; apply in_or_app; auto|reflexivity| |exact Pd].
    unfold cell. cbn [fst]. rewrite HB by lia. reflexivity.
Qed.
Lemma prog_done : forall s0 s L B b n l d uo, prog s0 s L B b n l d -> lenL l = n -> d <> DNone ->
  updcell (hp s0) (hp s) L (Elt (CArr n b) uo) -> fresh s0 s L uo (TArr b l d) (AArr (valL l) (valD d)).
Proof.
  intros s0 s L B b n l d uo P EN ND UC. destruct P as [X PL Pb (els & PE & LE) Pl Pd (PU1 & PU2) PO PI PC PN]. subst n. constructor; auto.
  - cbn [hT]. split; [exists els; split; [exact PE|]; destruct d; [contradiction|cbn; lia|cbn; lia]|]. auto.
  - cbn [uidsT]. rewrite PU1, PU2. reflexivity.
  - intros lo hi. destruct (PO lo hi) as (O1 & [O2|O2]); [contradiction|]. split; assumption.
  - intros x [<-|Hx]; [exact Pb|]. apply PI. exact Hx.
Qed.
