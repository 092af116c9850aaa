(** Proofs for C38, C39: the invariant. *)
Require Import ZArith List Bool Arith Lia Permutation Sorted.
Require Import Verif.Heap_Model Verif.Gvar_Model Verif.Gvar_Spec Verif.Gvar_Tree Verif.Gvar_Free Verif.Gvar_Build Verif.Gvar_Grow.
Import ListNotations.
Open Scope nat_scope.

(** a record which is no longer used *)
Definition ivr (U : nat -> option undo) (l : list nat) (u : nat) : Prop :=
  exists c n p, U u = Some (Undo None c n p) /\
    (forall w, n = Some w -> In w l /\ w < u /\ exists c' n', U w = Some (Undo None c' n' (Some u))) /\
    (forall w, p = Some w -> In w l /\ u < w /\ exists c' p', U w = Some (Undo None c' (Some u) p')).
Definition allI (O : list T) : list nat := flat_map idsT O.
Definition allU (O : list T) : list nat := flat_map uidsT O.
(** [O]: the variables, and the values saved in records whose element was assigned again *)
Record INV (s : gst) (O : list T) : Prop := {
  i_h : Forall (hT (hp s) (un s)) O;
  i_b : forall x, cnt x (allI O) <= 1;
  i_lt : forall x, In x (allI O) -> x < nb s;
  i_u : forall x, cnt x (allU O) <= 1;
  i_o : Forall (topT 0 (nb s)) O;
  i_s : StronglySorted gt (tr s);
  i_tlt : Forall (fun u => u < nb s) (tr s);
  i_val : forall u, In u (allU O) -> In u (tr s);
  i_iv : forall u, In u (tr s) -> In u (allU O) \/ ivr (un s) (tr s) u;
  i_root : forall a b, info s a = Some b -> exists t h, In (TArr b (LCons t h LNil) DNone) O;
  i_inj : forall a a' b, info s a = Some b -> info s a' = Some b -> a = a';
  i_pos : 0 < nb s }.

Lemma cnt_perm : forall l l', Permutation l l' -> forall x, cnt x l = cnt x l'.
Proof. intros l l' P x. apply (Permutation_count_occ Nat.eq_dec). exact P. Qed.
Lemma INV_perm : forall s O O', Permutation O O' -> INV s O -> INV s O'.
Proof.
  intros s O O' P [A1 A2 A3 A4 A5 A6 A7 A8 A9 A10 A11 A12].
  assert (PI : Permutation (allI O) (allI O')) by (apply Permutation_flat_map; exact P).
  assert (PU : Permutation (allU O) (allU O')) by (apply Permutation_flat_map; exact P).
  constructor; auto.
  - apply (Permutation_Forall P). exact A1.
  - intros x. rewrite <- (cnt_perm _ _ PI). apply A2.
  - intros x Hx. apply A3. apply (Permutation_in _ (Permutation_sym PI)). exact Hx.
  - intros x. rewrite <- (cnt_perm _ _ PU). apply A4.
  - apply (Permutation_Forall P). exact A5.
  - intros u Hu. apply A8. apply (Permutation_in _ (Permutation_sym PU)). exact Hu.
  - intros u Hu. destruct (A9 u Hu) as [Q|Q]; [left; apply (Permutation_in _ PU); exact Q|right; exact Q].
  - intros a b E. destruct (A10 a b E) as (t & h & Q). exists t, h. apply (Permutation_in _ P). exact Q.
Qed.
Lemma INV_pick : forall s O t, INV s O -> In t O -> exists R, Permutation O (t :: R) /\ INV s (t :: R).
Proof.
  intros s O t I Ht. destruct (in_split t O Ht) as (A & B & ->). exists (A ++ B).
  assert (P : Permutation (A ++ t :: B) (t :: A ++ B)) by (symmetry; apply Permutation_middle). split; [exact P|]. apply (INV_perm s _ _ P I).
Qed.

(** the records in use have an element *)
Definition hasloc (U : nat -> option undo) (u : nat) : Prop := exists L c n p, U u = Some (Undo (Some L) c n p).
Lemma uids_loc :
  (forall t h U u, hT h U t -> In u (uidsT t) -> hasloc U u) /\
  (forall l h U b i u, hL h U b i l -> In u (uidsL l) -> hasloc U u) /\
  (forall hs h U L p u, hH h U L p hs -> In u (uidsH hs) -> hasloc U u) /\
  (forall d h U b i u, hD h U b i d -> In u (uidsD d) -> hasloc U u).
Proof.
  apply tree_ind; cbn [hT hL hH hD uidsT uidsL uidsH uidsD].
  - intros w h U u _ [].
  - intros b w h U u _ [].
  - intros b l IHl d IHd h U u (_ & HL & HD) Hu. apply in_app_or in Hu. destruct Hu as [Hu|Hu]; [apply (IHl h U b 0)|apply (IHd h U b (lenL l))]; assumption.
  - intros h U b i u _ [].
  - intros t IHt hs IHh r IHr h U b i u (_ & Ht & Hh & Hr) Hu. rewrite !in_app_iff in Hu. destruct Hu as [Hu|[Hu|Hu]].
    + apply (IHt h U); assumption.
    + apply (IHh h U (b, i) None); assumption.
    + apply (IHr h U b (S i)); assumption.
  - intros h U L p u _ [].
  - intros u t IHt r IHr h U L p v (E & Ht & Hr) [<-|Hv]; [exists L, (cof t), (hdu r), p; exact E|].
    apply in_app_or in Hv. destruct Hv as [Hv|Hv]; [apply (IHt h U)|apply (IHr h U L (Some u))]; assumption.
  - intros h U b i u _ [].
  - intros h U b i u _ [].
  - intros t IHt h U b i u (_ & Ht) Hu. apply (IHt h U); assumption.
Qed.
(** their neighbours *)
Definition linked (U : nat -> option undo) (V : list nat) (u : nat) : Prop :=
  exists L c n p, U u = Some (Undo (Some L) c n p) /\
    (forall w, n = Some w -> In w V /\ w < u /\ exists L' c' n', U w = Some (Undo (Some L') c' n' (Some u))) /\
    (forall w, p = Some w -> In w V /\ u < w /\ exists L' c' p', U w = Some (Undo (Some L') c' (Some u) p')).
Lemma linked_incl : forall U V W u, linked U V u -> incl V W -> linked U W u.
Proof.
  intros U V W u (L & c & n & p & E & A & B) I. exists L, c, n, p. split; [exact E|]. split.
  - intros w Q. destruct (A w Q) as (X & Y). split; [apply I; exact X|exact Y].
  - intros w Q. destruct (B w Q) as (X & Y). split; [apply I; exact X|exact Y].
Qed.
Lemma chain_linked : forall hs h U L p lo hi V, hH h U L p hs -> ordH lo hi hs -> incl (uH hs) V ->
  (forall w v, p = Some w -> hdu hs = Some v -> In w V /\ v < w /\ exists L' c' p', U w = Some (Undo (Some L') c' (Some v) p')) ->
  forall u, In u (uH hs) -> linked U V u.
Proof.
  induction hs as [|v t r IH]; intros h U L p lo hi V Hh O IV HP u Hu; [destruct Hu|].
  destruct Hh as (E & _ & Hr). destruct O as (O1 & O2 & _ & O4). cbn [uH hdu] in *.
  destruct Hu as [<-|Hu].
  - exists L, (cof t), (hdu r), p. split; [exact E|]. split; [|intros w Q; apply (HP w v Q eq_refl)].
    intros w Q. destruct r as [|w' t' r']; [discriminate Q|]. injection Q as ->. destruct Hr as (E' & _). destruct O4 as (_ & O4 & _).
    split; [apply IV; right; left; reflexivity|]. split; [exact O4|]. exists L, (cof t'), (hdu r'). exact E'.
  - apply (IH h U L (Some v) lo v V Hr O4); [intros x Hx; apply IV; right; exact Hx| |exact Hu].
    intros w v' Q Q'. injection Q as <-. split; [apply IV; left; reflexivity|].
    destruct r as [|w' t' r']; [discriminate Q'|]. injection Q' as ->. destruct O4 as (_ & O4 & _). split; [exact O4|].
    exists L, (cof t), p. exact E.
Qed.
Lemma cur_linked :
  (forall t h U lo hi, hT h U t -> ordT lo hi t -> forall u, In u (uidsC t) -> linked U (uidsC t) u) /\
  (forall l h U b i lo hi, hL h U b i l -> ordL lo hi l -> forall u, In u (uidsCL l) -> linked U (uidsCL l) u) /\
  (forall h : Hs, True) /\
  (forall d h U b i lo hi, hD h U b i d -> ordD lo hi d -> forall u, In u (uidsCD d) -> linked U (uidsCD d) u).
Proof.
  apply tree_ind; try (intros; exact I); cbn [hT hL hD uidsC uidsCL uidsCD ordT ordL ordD].
  - intros w h U lo hi _ _ u [].
  - intros b w h U lo hi _ _ u [].
  - intros b l IHl d IHd h U lo hi (_ & HL & HD) (OL & OD) u Hu. apply in_app_or in Hu. destruct Hu as [Hu|Hu].
    + apply (linked_incl U (uidsCL l)); [apply (IHl h U b 0 lo hi); assumption|apply incl_appl; apply incl_refl].
    + apply (linked_incl U (uidsCD d)); [apply (IHd h U b (lenL l) lo hi); assumption|apply incl_appr; apply incl_refl].
  - intros h U b i lo hi _ _ u [].
  - intros t IHt hs _ r IHr h U b i lo hi (_ & Ht & Hh & Hr) (Ot & Oh & Or) u Hu. rewrite !in_app_iff in Hu. destruct Hu as [Hu|[Hu|Hu]].
    + apply (chain_linked hs h U (b, i) None lo hi); try assumption; [apply incl_appl; apply incl_refl|discriminate].
    + apply (linked_incl U (uidsC t)); [apply (IHt h U (loH lo hs) hi); assumption|apply incl_appr; apply incl_appl; apply incl_refl].
    + apply (linked_incl U (uidsCL r)); [apply (IHr h U b (S i) lo hi); assumption|apply incl_appr; apply incl_appr; apply incl_refl].
  - intros h U b i lo hi _ _ u [].
  - intros h U b i lo hi _ _ u [].
  - intros t IHt h U b i lo hi (_ & Ht) (_ & Ot) u Hu. apply (IHt h U lo hi); assumption.
Qed.
(** once all are marked as no longer used *)
Lemma linked_ivr : forall U U' V l u, linked U V u -> In u V -> incl V l ->
  (forall w, In w V -> U' w = option_map unvalid (U w)) -> ivr U' l u.
Proof.
  intros U U' V l u (L & c & n & p & E & A & B) Hu IV EU. exists c, n, p. rewrite EU, E by exact Hu. split; [reflexivity|]. split.
  - intros w Q. destruct (A w Q) as (X & Y & L' & c' & n' & Z). split; [apply IV; exact X|]. split; [exact Y|].
    exists c', n'. rewrite EU, Z by exact X. reflexivity.
  - intros w Q. destruct (B w Q) as (X & Y & L' & c' & n' & Z). split; [apply IV; exact X|]. split; [exact Y|].
    exists c', n'. rewrite EU, Z by exact X. reflexivity.
Qed.

Definition inb (n x : nat) : nat := if n <=? x then 1 else 0.
Lemma inb_lt : forall n x, x < n -> inb n x = 0.
Proof. intros n x L. unfold inb. destruct (Nat.leb_spec n x); [lia|reflexivity]. Qed.
Lemma inb_ge : forall n x, n <= x -> inb n x = 1.
Proof. intros n x L. unfold inb. destruct (Nat.leb_spec n x); [reflexivity|lia]. Qed.
Lemma ordT_topT : forall t lo hi, ordT lo hi t -> topT lo hi t.
Proof. intros [w|b w|b l [| |d]] lo hi O; try exact O. destruct O as (_ & []). Qed.
Lemma all_cons : forall t R x, cnt x (allI (t :: R)) = cnt x (idsT t) + cnt x (allI R).
Proof. intros. unfold allI. cbn [flat_map]. apply cnt_app. Qed.
Lemma allU_cons : forall t R x, cnt x (allU (t :: R)) = cnt x (uidsT t) + cnt x (allU R).
Proof. intros. unfold allU. cbn [flat_map]. apply cnt_app. Qed.
Lemma all_app : forall t R x, cnt x (allI (t ++ R)) = cnt x (allI t) + cnt x (allI R).
Proof. intros. unfold allI. rewrite flat_map_app. apply cnt_app. Qed.
Lemma allU_app : forall t R x, cnt x (allU (t ++ R)) = cnt x (allU t) + cnt x (allU R).
Proof. intros. unfold allU. rewrite flat_map_app. apply cnt_app. Qed.
Lemma allU_in : forall t O u, In t O -> In u (uidsT t) -> In u (allU O).
Proof. intros t O u A B. apply in_flat_map. exists t. auto. Qed.
Lemma allI_in : forall t O u, In t O -> In u (idsT t) -> In u (allI O).
Proof. intros t O u A B. apply in_flat_map. exists t. auto. Qed.

Lemma setP_root : forall p b t h c' h' L c hs, getP p (TArr b (LCons t h LNil) DNone) = Some (L, c, hs) ->
  exists t2 h2, setP p c' h' (TArr b (LCons t h LNil) DNone) = TArr b (LCons t2 h2 LNil) DNone.
Proof.
  intros [|i p] b t h c' h' L c hs E; [discriminate E|]. cbn [getP setP nthL] in *. destruct i as [|[|i]]; try discriminate E.
  destruct p; cbn [updL]; eauto.
Qed.

(** an element of the first tree has another value *)
Lemma INV_set : forall s s' t R p L c hs c' hs' G,
  INV s (t :: R) -> getP p t = Some (L, c, hs) -> nb s <= nb s' -> info s' = info s ->
  updcell (hp s) (hp s') L (Elt (cof c') (hdu hs')) ->
  (forall x, x < nb s -> x <> fst L -> ~ In x (idsT c) -> ~ In x (idsH hs) -> hp s' x = hp s x) ->
  (forall u, ~ In u (uidsT c) -> ~ In u (uidsH hs) -> u < nb s -> un s' u = un s u) ->
  hT (hp s') (un s') c' -> hH (hp s') (un s') L None hs' -> Forall (hT (hp s') (un s')) G ->
  (forall x, cnt x (idsT c') + cnt x (idsH hs') + cnt x (allI G) <= cnt x (idsT c) + cnt x (idsH hs) + inb (nb s) x) ->
  (forall x, In x (idsT c' ++ idsH hs' ++ allI G) -> x < nb s') ->
  (forall u, cnt u (uidsT c') + cnt u (uidsH hs') + cnt u (allU G) <= cnt u (uidsT c) + cnt u (uidsH hs) + inb (nb s) u) ->
  (forall lo, lo < nb s -> ordT (loH lo hs) (nb s) c -> ordH lo (nb s) hs ->
     ordT (loH lo hs') (nb s') c' /\ ordH lo (nb s') hs' /\ Forall (ordT 0 (nb s')) G) ->
  (forall u, In u (tr s) -> ~ In u (uidsT c) -> ~ In u (uidsH hs) -> In u (tr s')) ->
  (forall u, In u (uidsT c' ++ uidsH hs' ++ allU G) -> In u (tr s')) ->
  (forall u, In u (tr s') -> In u (tr s) \/ In u (uidsT c' ++ uidsH hs' ++ allU G)) ->
  (forall u, In u (uidsT c ++ uidsH hs) -> In u (tr s') -> In u (uidsT c' ++ uidsH hs' ++ allU G) \/ ivr (un s') (tr s') u) ->
  StronglySorted gt (tr s') -> Forall (fun u => u < nb s') (tr s') ->
  INV s' (setP p c' hs' t :: G ++ R).
Proof.
  intros s s' t R p L c hs c' hs' G IN E LN IF UC HB HU Hc Hh HG CI CB CU CO T1 T2 T3 T4 T5 T6.
  destruct IN as [A1 A2 A3 A4 A5 A6 A7 A8 A9 A10 A11 A12].
  pose proof (Forall_inv A1) as Ht. pose proof (Forall_inv_tail A1) as HR.
  pose proof (Forall_inv A5) as Ot. pose proof (Forall_inv_tail A5) as OR.
  assert (GI := fun x => cnt_getP p t L c hs x E). assert (GU := fun x => ucnt_getP p t L c hs x E).
  destruct (getP_hT p t _ _ L c hs Ht E) as (C0 & Hc0 & Hh0).
  assert (B2 : forall x, cnt x (idsT t) + cnt x (allI R) <= 1) by (intros x; specialize (A2 x); rewrite all_cons in A2; exact A2).
  assert (B4 : forall x, cnt x (uidsT t) + cnt x (allU R) <= 1) by (intros x; specialize (A4 x); rewrite allU_cons in A4; exact A4).
  assert (BR : forall x, In x (allI R) -> x < nb s) by (intros x Hx; apply A3; apply cnt_in; rewrite all_cons; mem).
  assert (Bt : forall x, In x (idsT t) -> x < nb s) by (intros x Hx; apply A3; apply cnt_in; rewrite all_cons; mem).
  assert (UR : forall u, In u (allU R) -> u < nb s).
  { intros u Hu. rewrite Forall_forall in A7. apply A7. apply A8. apply cnt_in. rewrite allU_cons. mem. }
  assert (Ut : forall u, In u (uidsT t) -> u < nb s).
  { intros u Hu. rewrite Forall_forall in A7. apply A7. apply A8. apply cnt_in. rewrite allU_cons. mem. }
  assert (NEWU : forall u, cnt u (allU (setP p c' hs' t :: G ++ R)) + cnt u (uidsT c) + cnt u (uidsH hs) =
     cnt u (allU (t :: R)) + cnt u (uidsT c') + cnt u (uidsH hs') + cnt u (allU G)).
  { intros u. rewrite !allU_cons, allU_app. pose proof (ucnt_setP p t L c hs c' hs' u E). lia. }
  destruct (getP_top p t L c hs 0 (nb s) Ot E) as (lo & _ & LO & O1 & O2 & K).
  destruct (CO lo (LO A12) O1 O2) as (O3 & O4 & O5).
  assert (NL : forall x, In x (allI R) -> x <> fst L).
  { intros x Hx ->. specialize (GI (fst L)). rewrite one_same in GI. specialize (B2 (fst L)). mem. }
  constructor.
  - constructor; [|apply Forall_app; split; [exact HG|]].
    + apply (setP_hT p t L c hs (hp s) (un s)); try assumption.
      * intros x. specialize (B2 x). lia.
      * intros x. specialize (B4 x). lia.
      * intros x Hx. apply HB. apply Bt. exact Hx.
      * intros u Hu N1 N2. apply HU; [exact N1|exact N2|]. apply Ut. exact Hu.
    + rewrite Forall_forall in *. intros r Hr. apply (frameT r (hp s) (un s)); [| |apply HR; exact Hr].
      * intros x Hx. pose proof (allI_in r R x Hr Hx) as Q. specialize (B2 x). specialize (GI x). apply HB; [apply BR; exact Q|apply NL; exact Q|mem|mem].
      * intros u Hu. pose proof (allU_in r R u Hr Hu) as Q. specialize (B4 u). specialize (GU u). apply HU; [mem|mem|apply UR; exact Q].
  - intros x. rewrite all_cons, all_app. pose proof (cnt_setP p t L c hs c' hs' x E). specialize (CI x). specialize (B2 x).
    destruct (Nat.lt_ge_cases x (nb s)) as [Q|Q]; [rewrite inb_lt in CI by exact Q; lia|]. rewrite inb_ge in CI by exact Q.
    assert (~ In x (idsT t)) by (intros I0; specialize (Bt x I0); lia). assert (~ In x (allI R)) by (intros I0; specialize (BR x I0); lia). specialize (GI x). mem.
  - intros x Hx. pose proof (cnt_setP p t L c hs c' hs' x E). apply cnt_in in Hx. rewrite all_cons, all_app in Hx.
    destruct (in_dec Nat.eq_dec x (idsT c' ++ idsH hs' ++ allI G)) as [Q|Q]; [apply CB; exact Q|].
    assert (x < nb s); [|lia]. apply A3. apply cnt_in. rewrite all_cons. specialize (GI x). mem.
  - intros u. specialize (NEWU u). specialize (CU u). specialize (A4 u).
    destruct (Nat.lt_ge_cases u (nb s)) as [Q|Q]; [rewrite inb_lt in CU by exact Q; lia|]. rewrite inb_ge in CU by exact Q.
    assert (N1 : ~ In u (allU (t :: R))).
    { intros I0. apply A8 in I0. rewrite Forall_forall in A7. specialize (A7 u I0). lia. }
    specialize (GU u). rewrite allU_cons in *. mem.
  - constructor; [apply K; [exact LN|exact O3|exact O4]|]. apply Forall_app. split.
    + rewrite Forall_forall in *. intros r Hr. apply ordT_topT. apply O5. exact Hr.
    + rewrite Forall_forall in *. intros r Hr. apply (top_hi r 0 (nb s)); [exact LN|apply OR; exact Hr].
  - exact T5.
  - exact T6.
  - intros u Hu. destruct (in_dec Nat.eq_dec u (uidsT c' ++ uidsH hs' ++ allU G)) as [Q|Q]; [apply T2; exact Q|].
    specialize (NEWU u). specialize (GU u). specialize (A4 u). rewrite (allU_cons t) in *.
    apply T1; [apply A8; apply cnt_in; rewrite allU_cons|..]; mem.
  - intros u Hu. destruct (in_dec Nat.eq_dec u (uidsT c' ++ uidsH hs' ++ allU G)) as [Q|Q].
    { left. specialize (NEWU u). specialize (GU u). rewrite (allU_cons t) in NEWU. mem. }
    destruct (in_dec Nat.eq_dec u (uidsT c ++ uidsH hs)) as [Q2|Q2].
    { destruct (T4 u Q2 Hu) as [Q3|Q3]; [contradiction|right; exact Q3]. }
    destruct (T3 u Hu) as [Q3|Q3]; [|contradiction]. destruct (A9 u Q3) as [Q4|Q4].
    { left. specialize (NEWU u). mem. }
    right. destruct Q4 as (k & n & q & EU & N1 & N2).
    assert (KEEP : forall w c0 n0 p0, In w (tr s) -> un s w = Some (Undo None c0 n0 p0) -> un s' w = Some (Undo None c0 n0 p0) /\ In w (tr s')).
    { intros w c0 n0 p0 Iw Ew. assert (V1 : ~ In w (uidsT c)).
      { intros I0. destruct (proj1 uids_loc c _ _ w Hc0 I0) as (L1 & c1 & n1 & p1 & Q5). rewrite Ew in Q5. discriminate Q5. }
      assert (V2 : ~ In w (uidsH hs)).
      { intros I0. destruct (proj1 (proj2 (proj2 uids_loc)) hs _ _ _ _ w Hh0 I0) as (L1 & c1 & n1 & p1 & Q5). rewrite Ew in Q5. discriminate Q5. }
      rewrite HU; [split; [exact Ew|]|exact V1|exact V2|]; [apply T1; assumption|]. rewrite Forall_forall in A7. apply A7. exact Iw. }
    exists k, n, q. split; [apply (KEEP u _ _ _ Q3 EU)|]. split.
    + intros w Ew. destruct (N1 w Ew) as (Iw & Lw & c1 & n1 & Ew1). destruct (KEEP w _ _ _ Iw Ew1) as (Q5 & Q6). split; [exact Q6|]. split; [exact Lw|]. exists c1, n1. exact Q5.
    + intros w Ew. destruct (N2 w Ew) as (Iw & Lw & c1 & n1 & Ew1). destruct (KEEP w _ _ _ Iw Ew1) as (Q5 & Q6). split; [exact Q6|]. split; [exact Lw|]. exists c1, n1. exact Q5.
  - intros a b Q. rewrite IF in Q. destruct (A10 a b Q) as (t1 & h1 & [->|I1]).
    + destruct (setP_root p b t1 h1 c' hs' L c hs E) as (t2 & h2 & ->). exists t2, h2. left. reflexivity.
    + exists t1, h1. right. apply in_or_app. right. exact I1.
  - intros a a' b Q Q'. rewrite IF in Q, Q'. apply (A11 a a' b Q Q').
  - lia.
Qed.
