(** Proofs about the generic hash table, continued: find, delete, free, resize (C21). *)
Require Import ZArith List Bool Lia Permutation.
Require Import Verif.Heap_Model Verif.Hash_Model Verif.Hash_Spec Verif.Hash_Proofs.
Import ListNotations.
Open Scope Z_scope.

Lemma Find_ok m b f cs k fuel : tbl m b f cs -> (length (concat cs) < fuel)%nat ->
  exists p, Find fuel m b k = Ret p /\
    match f k with
    | Some v => p <> 0 /\ In p (addrs (concat cs)) /\ exists n, hnodes m p = Some (Node n k v)
    | None => p = 0
    end.
Proof.
  intros T L. destruct (tbl_size_rd _ _ _ _ T) as [x [Rx [Sx _]]]. unfold Find. rewrite Rx. cbn [bind]. rewrite Sx.
  destruct (Hash_Locate_ok m b cs _ k fuel (t_rep _ _ _ _ T) (t_pure _ _ _ _ T) L) as [t [-> Lt]]. cbn [bind].
  unfold located in Lt. set (i := hashn (length cs) k) in *.
  assert (Li : (i < length cs)%nat) by (apply hashn_lt; exact (r_len _ _ _ _ (t_rep _ _ _ _ T))).
  destruct Lt as [[c1 [p [w [c2 [En [Et [Rt [Np Q]]]]]]]]|[Nk [Et Rt]]].
  - exists p. split; [auto|].
    assert (Ip : In (p, (k, w)) (concat cs)).
    { apply in_concat_nth. exists i. split; [auto|]. rewrite En. apply in_or_app. right. now left. }
    assert (Fk : f k = Some w) by (apply (t_map _ _ _ _ T); eauto).
    rewrite Fk. split; [auto|]. split; [|eauto]. unfold addrs. apply in_map_iff. now exists (p, (k, w)).
  - exists 0. split; [auto|]. assert (f k = None) as -> by (apply (t_none _ _ _ _ _ T); auto). reflexivity.
Qed.

Lemma Delete_ok m b f cs k fuel : tbl m b f cs -> (length (concat cs) < fuel)%nat ->
  exists m' r cs', Delete fuel m b k = Ret (m', r) /\ tbl m' b (m_del f k) cs' /\ length cs' = length cs /\
    r = match f k with Some _ => true | None => false end /\
    outside m m' b (fun x => In x (addrs (concat cs))) /\
    (forall x, In x (addrs (concat cs')) \/ In x (addrs (concat cs)) /\ hnodes m' x = None <-> In x (addrs (concat cs))) /\
    (forall x k' w n, In x (addrs (concat cs)) -> hnodes m x = Some (Node n k' w) -> k' <> k -> exists n', hnodes m' x = Some (Node n' k' w)) /\
    (forall i, (i < length cs)%nat -> i <> hashn (length cs) k -> nth i cs' [] = nth i cs []) /\
    (forall c1 e c2, nth (hashn (length cs) k) cs [] = c1 ++ e :: c2 -> fst (snd e) = k -> nth (hashn (length cs) k) cs' [] = c1 ++ c2) /\
    (f k = None -> cs' = cs).
Proof.
  intros T L. destruct (tbl_size_rd _ _ _ _ T) as [x [Rx [Sx _]]]. unfold Delete. rewrite Rx. cbn [bind]. rewrite Sx.
  destruct (Hash_Locate_ok m b cs _ k fuel (t_rep _ _ _ _ T) (t_pure _ _ _ _ T) L) as [t [-> Lt]]. cbn [bind].
  unfold located in Lt. set (i := hashn (length cs) k) in *.
  assert (Li : (i < length cs)%nat) by (apply hashn_lt; exact (r_len _ _ _ _ (t_rep _ _ _ _ T))).
  destruct Lt as [[c1 [p [w [c2 [En [Et [Rt [Np Q]]]]]]]]|[Nk [Et Rt]]].
  - rewrite Rt. cbn [bind]. destruct (Z.eqb_spec p 0); [lia|]. unfold rd_node at 1. rewrite Q. cbn [bind nnext].
    assert (Fk : f k = Some w).
    { apply (t_map _ _ _ _ T). exists p. apply in_concat_nth. exists i. split; [auto|]. rewrite En. apply in_or_app. right. now left. }
    pose proof (perm_old cs i c1 _ Li En) as Po. pose proof (perm_new cs i c1 c2) as Pn. cbn [app] in Po.
    pose proof (perm_addrs _ _ Po (r_addr _ _ _ _ (t_rep _ _ _ _ T))) as NA. cbn [addrs map fst] in NA. inversion NA as [|? ? Na NA']; subst x0 l.
    pose proof (perm_keys _ _ Po (r_key _ (t_pure _ _ _ _ T))) as NK. cbn [keys map fst snd] in NK. inversion NK as [|? ? Nk NK']; subst x0 l.
    pose proof (r_chain _ _ _ _ (t_rep _ _ _ _ T) i Li) as C. rewrite En in C. apply chain_app in C as [C1 C2]. destruct C2 as [_ [_ C2]].
    destruct (relink m b cs _ i c1 ((p, (k, w)) :: c2) c2 (t_rep _ _ _ _ T) Li En C2) as [m1 [W1 [R1 [N1 B1]]]].
    { apply (perm_addrs _ _ (Permutation_sym Pn)). exact NA'. }
    rewrite Et, W1. cbn [bind].
    assert (Pc1 : ~ In p (addrs c1)).
    { intros I. apply Na. change (In p (addrs (c2 ++ rest cs i c1))). unfold rest. rewrite !addrs_app. apply in_or_app. right.
      apply in_or_app. right. apply in_or_app. now left. }
    unfold free_node, rd_node. rewrite (N1 p Pc1), Q. cbn [bind].
    set (m2 := Hmem (upd (hnodes m1) p None) (hblocks m1)).
    set (cs' := setn cs i (c1 ++ c2)) in *.
    assert (Pm : forall y, In y (addrs (concat cs)) <-> y = p \/ In y (addrs (concat cs'))).
    { intros y. split; intros I.
      - apply (Permutation_in _ (Permutation_map fst Po)) in I. destruct I as [I|I]; [now left|]. right.
        exact (Permutation_in _ (Permutation_map fst (Permutation_sym Pn)) I).
      - apply (Permutation_in _ (Permutation_map fst (Permutation_sym Po))). destruct I as [->|I]; [now left|]. right.
        exact (Permutation_in _ (Permutation_map fst Pn) I). }
    assert (Nc : ~ In p (addrs (concat cs'))) by (intros I; apply Na; exact (Permutation_in _ (Permutation_map fst Pn) I)).
    assert (R2 : rep0 m2 b cs' (Z.of_nat (length (concat cs)))).
    { apply (rep0_frame m1); [exact R1| |reflexivity]. intros y I. unfold m2. cbn [hnodes]. apply upd_neq. congruence. }
    destruct (rep0_nb m2 b _ _ (fun n => n - 1) R2) as [m3 [-> [R3 [N3 B3]]]]. cbn [bind].
    assert (Hn : forall y, y <> p -> ~ In y (addrs c1) -> hnodes m3 y = hnodes m y).
    { intros y Ny N'. rewrite N3. unfold m2. cbn [hnodes]. rewrite upd_neq by auto. now apply N1. }
    exists m3, true, cs'. split; [reflexivity|]. split; [split|split; [now apply setn_length|]].
    + assert (Z.of_nat (length (concat cs')) = Z.of_nat (length (concat cs)) - 1) as ->; [|exact R3].
      rewrite (Permutation_length Po), (Permutation_length Pn). cbn [length]. lia.
    + apply (pure_setn cs i c1 ((p, (k, w)) :: c2)); auto.
      * exact (t_pure _ _ _ _ T).
      * apply (perm_keys _ _ (Permutation_sym Pn)). exact NK'.
      * intros k' I. apply (r_hash _ (t_pure _ _ _ _ T) i Li). rewrite En, keys_app. apply in_or_app. right. now right.
    + intros k' v'. unfold m_del. destruct (Z.eqb_spec k' k) as [->|Nkk].
      * split; [discriminate|]. intros [a' I]. exfalso. apply Nk. apply (Permutation_in _ Pn) in I.
        change (In k (keys (c2 ++ rest cs i c1))). unfold keys. apply in_map_iff. now exists (a', (k, v')).
      * rewrite (t_map _ _ _ _ T). split; intros [a' I]; exists a'.
        -- apply (Permutation_in _ Po) in I. apply (Permutation_in _ (Permutation_sym Pn)). destruct I as [I|I]; [congruence|auto].
        -- apply (Permutation_in _ Pn) in I. apply (Permutation_in _ (Permutation_sym Po)). now right.
    + rewrite Fk. split; [reflexivity|]. split; [split|split; [|split; [|split; [|split; [|congruence]]]]].
      * intros y Ny. apply Hn.
        -- intros ->. apply Ny. apply Pm. now left.
        -- intros I. apply Ny. apply in_addrs_nth. exists i. split; [auto|]. rewrite En, addrs_app. apply in_or_app. now left.
      * intros b' Nb. rewrite B3 by auto. unfold m2. cbn [hblocks]. now apply B1.
      * intros y. rewrite Pm. split; [tauto|]. intros [->|I]; [|now left]. right. split; [now left|]. rewrite N3. unfold m2. cbn [hnodes]. apply upd_eq.
      * intros y k' w' n' Iy Qy Nk'. assert (y <> p) by (intros ->; congruence). destruct (in_dec Z.eq_dec y (addrs c1)) as [Ic|Nc1].
        -- unfold addrs in Ic. apply in_map_iff in Ic as [[y' [k2 w2]] [E Ic]]. cbn in E. subst y'.
           assert (C3 : chain m3 (nth i cs' []) 0) by (apply (r_chain _ _ _ _ R3); unfold cs'; rewrite setn_length; auto).
           unfold cs' in C3. rewrite nth_setn_eq in C3 by auto. apply chain_app in C3 as [C3 _].
           destruct (chain_in _ _ _ _ _ _ C3 Ic) as [n3 Q3]. destruct (chain_in _ _ _ _ _ _ C1 Ic) as [n4 Q4].
           assert (k2 = k' /\ w2 = w') as [-> ->] by (split; congruence). eauto.
        -- rewrite Hn by auto. eauto.
      * intros j Lj Nj. unfold cs'. now apply nth_setn_neq; auto.
      * intros d1 e d2 E Ee. unfold cs'. rewrite nth_setn_eq by auto. destruct e as [a' [k' v']]. cbn in Ee. subst k'.
        assert (NKc : NoDup (keys (nth i cs []))).
        { pose proof (r_key _ (t_pure _ _ _ _ T)) as N. rewrite (concat_split cs i Li), !keys_app in N. apply NoDup_app_inv in N as [_ [N _]].
          now apply NoDup_app_inv in N as [N _]. }
        clear - E En NKc. rewrite E in En, NKc. clear E. revert d1 NKc En. generalize c1.
        induction c0 as [|e c0 IH]; intros d1 NKc En; destruct d1 as [|e' d1]; cbn [app] in *.
        -- congruence.
        -- exfalso. inversion En as [[E1 E2]]. subst e'. cbn [keys map fst snd app] in NKc. inversion NKc as [|? ? N _]; subst. apply N.
           change (In k (keys (d1 ++ (a', (k, v')) :: d2))). rewrite keys_app. apply in_or_app. right. now left.
        -- exfalso. inversion En as [[E1 E2]]. subst e d2. cbn [keys map fst snd app] in NKc. inversion NKc as [|? ? N _]; subst. apply N.
           change (In k (keys (c0 ++ (p, (k, w)) :: c2))). rewrite keys_app. apply in_or_app. right. now left.
        -- inversion En as [[E1 E2]]. f_equal. apply (IH d1); auto. cbn [keys map] in NKc. now inversion NKc.
  - rewrite Rt. cbn [bind]. rewrite Z.eqb_refl. assert (Fk : f k = None) by (apply (t_none _ _ _ _ _ T); auto).
    exists m, false, cs. split; [reflexivity|]. split; [|split; [reflexivity|]].
    + split; [exact (t_rep _ _ _ _ T)|exact (t_pure _ _ _ _ T)|]. intros k' v'. unfold m_del. destruct (Z.eqb_spec k' k) as [->|N].
      * rewrite <- (t_map _ _ _ _ T). rewrite Fk. tauto.
      * apply (t_map _ _ _ _ T).
    + rewrite Fk. split; [reflexivity|]. split; [split; reflexivity|]. split; [intros y; tauto|]. split; [eauto|]. split; [auto|].
      split; [|auto]. intros d1 e d2 E Ee. exfalso. apply Nk. apply in_keys_nth. exists i. split; [auto|]. rewrite E, keys_app.
      apply in_or_app. right. left. exact Ee.
Qed.

Lemma slots_inv (P : nat -> hmem -> Prop) (f : hmem -> Z -> outcome hmem) : forall n i m, P i m ->
  (forall j m, (i <= j < i + n)%nat -> P j m -> exists m', f m (Z.of_nat j) = Ret m' /\ P (S j) m') ->
  exists m', slots_loop n (Z.of_nat i) m f = Ret m' /\ P (i + n)%nat m'.
Proof.
  induction n as [|n IH]; intros i m Pi St.
  - exists m. rewrite Nat.add_0_r. auto.
  - cbn [slots_loop]. destruct (St i m ltac:(lia) Pi) as [m1 [-> P1]]. cbn [bind].
    replace (Z.of_nat i + 1) with (Z.of_nat (S i)) by lia. destruct (IH (S i) m1 P1) as [m2 [-> P2]].
    + intros j mj Lj. apply St. lia.
    + exists m2. split; [reflexivity|]. now rewrite Nat.add_succ_r.
Qed.
Lemma do_slots_inv (P : nat -> hmem -> Prop) f n m : (1 <= n)%nat -> P O m ->
  (forall j m, (j < n)%nat -> P j m -> exists m', f m (Z.of_nat j) = Ret m' /\ P (S j) m') ->
  exists m', do_slots (Z.of_nat n) m f = Ret m' /\ P n m'.
Proof.
  intros L P0 St. unfold do_slots. replace (Z.to_nat (Z.max 1 (Z.of_nat n))) with n by lia.
  apply (slots_inv P f n O m P0). intros j mj Lj. apply St. lia.
Qed.

Lemma free_chain_ok : forall c m fuel, chain m c 0 -> NoDup (addrs c) -> (length c < fuel)%nat ->
  exists m', free_chain fuel m (hda c 0) = Ret m' /\ hblocks m' = hblocks m /\
    (forall y, In y (addrs c) -> hnodes m' y = None) /\ (forall y, ~ In y (addrs c) -> hnodes m' y = hnodes m y).
Proof.
  induction c as [|[a [k v]] c IH]; intros m fuel C N L; (destruct fuel as [|fu]; [cbn in L; lia|]); cbn [free_chain hda].
  - exists m. split; [reflexivity|]. split; [reflexivity|]. split; [intros y []|reflexivity].
  - destruct C as [Nz [Q C]]. destruct (Z.eqb_spec a 0); [lia|]. unfold rd_node, free_node, rd_node. rewrite Q. cbn [bind nnext].
    cbn [addrs map fst] in N. inversion N as [|? ? Na N']; subst.
    destruct (IH (Hmem (upd (hnodes m) a None) (hblocks m)) fu) as [m' [-> [B [F1 F2]]]]; auto.
    + apply (chain_frame m); [auto|]. intros y I. cbn [hnodes]. apply upd_neq. intros ->. contradiction.
    + cbn in L. lia.
    + exists m'. split; [reflexivity|]. split; [exact B|]. split.
      * intros y [<-|I]; [|auto]. rewrite F2 by auto. cbn [hnodes]. apply upd_eq.
      * intros y Ny. rewrite F2 by (intros I; apply Ny; now right). cbn [hnodes]. apply upd_neq. intros ->. apply Ny. now left.
Qed.

Lemma firstn_S_nth {A} (l : list A) i d : (i < length l)%nat -> firstn (S i) l = firstn i l ++ [nth i l d].
Proof.
  revert i. induction l as [|x l IH]; intros i L; [cbn in L; lia|]. destruct i as [|i]; [reflexivity|].
  change (x :: firstn (S i) l = x :: (firstn i l ++ [nth i l d])). f_equal. apply IH. cbn in L. lia.
Qed.
Lemma addrs_firstn_S (cs : list ch) i y : (i < length cs)%nat ->
  (In y (addrs (concat (firstn (S i) cs))) <-> In y (addrs (concat (firstn i cs))) \/ In y (addrs (nth i cs []))).
Proof.
  intros L. rewrite (firstn_S_nth cs i [] L), concat_app, addrs_app. cbn [concat]. rewrite app_nil_r. rewrite in_app_iff. tauto.
Qed.
Lemma addrs_firstn_nin (cs : list ch) i y : NoDup (addrs (concat cs)) -> (i < length cs)%nat ->
  In y (addrs (nth i cs [])) -> ~ In y (addrs (concat (firstn i cs))).
Proof.
  intros N L I J. rewrite (concat_split cs i L), !addrs_app in N. apply NoDup_app_inv in N as [_ [_ D]]. apply (D y J). apply in_or_app. now left.
Qed.
Lemma nodup_nth (cs : list ch) i : NoDup (addrs (concat cs)) -> (i < length cs)%nat -> NoDup (addrs (nth i cs [])).
Proof.
  intros N L. rewrite (concat_split cs i L), !addrs_app in N. apply NoDup_app_inv in N as [_ [N _]]. now apply NoDup_app_inv in N as [N _].
Qed.

(** state of the table in the loops that free the chains *)
Definition freed (m : hmem) (b : Z) (cs : list ch) (z : bool) (i : nat) (m' : hmem) : Prop :=
  (exists x', hblocks m' b = Some x' /\ bcap x' = Z.of_nat (length cs) /\ bsize x' = Z.of_nat (length cs) /\
     forall j, (j < length cs)%nat -> bslot x' (Z.of_nat j) = if z && (j <? i)%nat then 0 else hda (nth j cs []) 0) /\
  (forall b', b' <> b -> hblocks m' b' = hblocks m b') /\
  (forall y, In y (addrs (concat (firstn i cs))) -> hnodes m' y = None) /\
  (forall y, ~ In y (addrs (concat (firstn i cs))) -> hnodes m' y = hnodes m y).
Lemma freed_step m b cs nb z i m1 fuel : rep0 m b cs nb -> (length (concat cs) < fuel)%nat -> (i < length cs)%nat -> freed m b cs z i m1 ->
  exists p m2, rd_loc m1 (Slot b (Z.of_nat i)) = Ret p /\ free_chain fuel m1 p = Ret m2 /\
    (if z then exists m3, wr_loc m2 (Slot b (Z.of_nat i)) 0 = Ret m3 /\ freed m b cs z (S i) m3 else freed m b cs z (S i) m2).
Proof.
  intros R Lf L [[x [Hx [X1 [X2 X4]]]] [B1 [N1 N2]]].
  assert (Rd : rd_loc m1 (Slot b (Z.of_nat i)) = Ret (hda (nth i cs []) 0)).
  { unfold rd_loc, rd_block. rewrite Hx. cbn [bind]. rewrite X1, X4 by auto.
    destruct (Z.leb_spec 0 (Z.of_nat i)), (Z.ltb_spec (Z.of_nat i) (Z.of_nat (length cs))); try lia. cbn [andb].
    now rewrite Nat.ltb_irrefl, andb_false_r. }
  pose proof (r_addr _ _ _ _ R) as NA. pose proof (chain_le cs i L) as Lc.
  destruct (free_chain_ok (nth i cs []) m1 fuel) as [m2 [F2 [B2 [G1 G2]]]].
  { apply (chain_frame m); [exact (r_chain _ _ _ _ R i L)|]. intros y I. apply N2. now apply addrs_firstn_nin. }
  { now apply nodup_nth. }
  { lia. }
  exists (hda (nth i cs []) 0), m2. split; [exact Rd|]. split; [exact F2|].
  assert (Hn1 : forall y, In y (addrs (concat (firstn (S i) cs))) -> hnodes m2 y = None).
  { intros y I. destruct (in_dec Z.eq_dec y (addrs (nth i cs []))) as [J|J]; [auto|]. rewrite G2 by auto.
    apply (addrs_firstn_S cs i y L) in I as [I|I]; [auto|contradiction]. }
  assert (Hn2 : forall y, ~ In y (addrs (concat (firstn (S i) cs))) -> hnodes m2 y = hnodes m y).
  { intros y I. rewrite (addrs_firstn_S cs i y L) in I. rewrite G2, N2; [reflexivity| |]; intros J; apply I; auto. }
  destruct z.
  - cbn [wr_loc]. unfold rd_block, wr_block, rd_block. rewrite B2, Hx. cbn [bind]. rewrite X1.
    destruct (Z.leb_spec 0 (Z.of_nat i)), (Z.ltb_spec (Z.of_nat i) (Z.of_nat (length cs))); try lia. cbn [andb].
    eexists. split; [reflexivity|]. split; [|split; [|split]].
    + cbn [hblocks]. rewrite upd_eq. eexists. split; [reflexivity|]. cbn [bcap bsize bslot]. split; [auto|]. split; [auto|].
      intros j Lj. cbn [andb]. destruct (Nat.eq_dec j i) as [->|Nj].
      * rewrite upd_eq. destruct (Nat.ltb_spec i (S i)); [reflexivity|lia].
      * rewrite upd_neq by lia. rewrite X4 by auto. cbn [andb]. destruct (Nat.ltb_spec j i), (Nat.ltb_spec j (S i)); try lia; reflexivity.
    + intros b' Nb. cbn [hblocks]. rewrite upd_neq by auto. auto.
    + exact Hn1.
    + exact Hn2.
  - split; [|split; [|split]]; auto.
    + rewrite B2. exists x. cbn [andb] in *. auto.
    + intros b' Nb. rewrite B2. auto.
Qed.
Lemma freed_init m b cs nb z : rep0 m b cs nb -> freed m b cs z O m.
Proof.
  intros R. destruct (r_blk _ _ _ _ R) as [x [Hx [X1 [X2 [X3 X4]]]]]. split; [|split; [auto|split; [intros y []|auto]]].
  exists x. split; [auto|]. split; [auto|]. split; [auto|]. intros j Lj. cbn. rewrite andb_false_r. auto.
Qed.

Lemma Delete_All_ok m b f cs fuel : tbl m b f cs -> (length (concat cs) < fuel)%nat ->
  exists m' cs', Delete_All fuel m b = Ret m' /\ tbl m' b m_empty cs' /\ length cs' = length cs /\ concat cs' = [] /\
    (forall x, In x (addrs (concat cs)) -> hnodes m' x = None) /\ outside m m' b (fun x => In x (addrs (concat cs))).
Proof.
  intros T L. destruct (tbl_size_rd _ _ _ _ T) as [x [Rx [Sx _]]]. unfold Delete_All. rewrite Rx. cbn [bind]. rewrite Sx.
  pose proof (t_rep _ _ _ _ T) as R. pose proof (r_len _ _ _ _ R) as Ln.
  destruct (do_slots_inv (freed m b cs true)
    (fun m i => do p <- rd_loc m (Slot b i); do m <- free_chain fuel m p; wr_loc m (Slot b i) 0) (length cs) m) as [m1 [-> F]].
  { lia. }
  { exact (freed_init _ _ _ _ _ R). }
  { intros j mj Lj Fj. destruct (freed_step _ _ _ _ _ _ _ _ R L Lj Fj) as [p [m2 [-> [Q2 [m3 [W3 F3]]]]]]. cbn [bind]. rewrite Q2. cbn [bind]. eauto. }
  cbn [bind]. destruct F as [[x' [Hx' [X1 [X2 X4]]]] [B [N1 N2]]]. rewrite firstn_all in N1, N2.
  assert (Cn : concat (repeat (@nil (Z * (Z * Z))) (length cs)) = []) by (generalize (length cs); induction n; auto).
  assert (Nn : forall i, nth i (repeat (@nil (Z * (Z * Z))) (length cs)) [] = []) by (intros i; apply nth_repeat).
  assert (R1 : rep0 m1 b (repeat [] (length cs)) (bnb x')).
  { split.
    - exists x'. rewrite repeat_length. split; [auto|]. split; [auto|]. split; [auto|]. split; [auto|].
      intros i Li. rewrite X4, Nn by auto. cbn [andb]. destruct (Nat.ltb_spec i (length cs)); [reflexivity|lia].
    - now rewrite repeat_length.
    - intros i _. now rewrite Nn.
    - rewrite Cn. constructor. }
  destruct (rep0_nb _ _ _ _ (fun _ => 0) R1) as [m2 [-> [R2 [M2 B2]]]].
  exists m2, (repeat [] (length cs)). split; [reflexivity|]. split; [|split; [apply repeat_length|split; [exact Cn|split; [|split]]]].
  - split.
    + rewrite Cn. exact R2.
    + split; [|rewrite Cn; constructor]. intros i _ k. rewrite Nn. intros [].
    + intros k v. rewrite Cn. unfold m_empty. split; [discriminate|]. intros [a []].
  - intros y I. rewrite M2. auto.
  - intros y Ny. rewrite M2. auto.
  - intros b' Nb. rewrite B2 by auto. auto.
Qed.
Lemma Free_Table_ok m b f cs fuel : tbl m b f cs -> (length (concat cs) < fuel)%nat ->
  exists m', Free_Table fuel m b = Ret m' /\ hblocks m' b = None /\
    (forall x, In x (addrs (concat cs)) -> hnodes m' x = None) /\ outside m m' b (fun x => In x (addrs (concat cs))).
Proof.
  intros T L. destruct (tbl_size_rd _ _ _ _ T) as [x [Rx [Sx _]]]. unfold Free_Table. rewrite Rx. cbn [bind]. rewrite Sx.
  pose proof (t_rep _ _ _ _ T) as R. pose proof (r_len _ _ _ _ R) as Ln.
  destruct (do_slots_inv (freed m b cs false)
    (fun m i => do p <- rd_loc m (Slot b i); free_chain fuel m p) (length cs) m) as [m1 [-> F]].
  { lia. }
  { exact (freed_init _ _ _ _ _ R). }
  { intros j mj Lj Fj. destruct (freed_step _ _ _ _ _ _ _ _ R L Lj Fj) as [p [m2 [-> [Q2 F2]]]]. cbn [bind]. eauto. }
  cbn [bind]. destruct F as [[x' [Hx' [X1 [X2 X4]]]] [B [N1 N2]]]. rewrite firstn_all in N1, N2.
  unfold free_block, rd_block. rewrite Hx'. cbn [bind]. eexists. split; [reflexivity|]. cbn [hnodes hblocks]. split; [apply upd_eq|].
  split; [auto|]. split; [auto|]. intros b' Nb. cbn [hblocks]. rewrite upd_neq by auto. auto.
Qed.
Lemma Alloc_ok m size a : 1 <= size < W64 -> exists m' cs, Alloc_Table m size a = Ret (m', a) /\ tbl m' a m_empty cs /\
  Z.of_nat (length cs) = size /\ concat cs = [] /\ hnodes m' = hnodes m /\ (forall b, b <> a -> hblocks m' b = hblocks m b).
Proof.
  intros L. unfold Alloc_Table. destruct (Z.ltb_spec size 0), (Z.ltb_spec size 1); try lia.
  set (n := Z.to_nat size).
  assert (Cn : concat (repeat (@nil (Z * (Z * Z))) n) = []) by (generalize n; induction n0; auto).
  assert (Nn : forall i, nth i (repeat (@nil (Z * (Z * Z))) n) [] = []) by (intros i; apply nth_repeat).
  eexists. exists (repeat [] n). split; [reflexivity|]. split; [|split; [rewrite repeat_length; lia|split; [exact Cn|split; [reflexivity|]]]].
  - split.
    + split.
      * cbn [hblocks]. rewrite upd_eq. eexists. split; [reflexivity|]. cbn. rewrite repeat_length, Cn.
        split; [lia|]. split; [lia|]. split; [reflexivity|]. intros i _. now rewrite Nn.
      * rewrite repeat_length. lia.
      * intros i _. now rewrite Nn.
      * rewrite Cn. constructor.
    + split; [|rewrite Cn; constructor]. intros i _ k. rewrite Nn. intros [].
    + intros k v. rewrite Cn. unfold m_empty. split; [discriminate|]. intros [x []].
  - intros b Nb. cbn [hblocks]. now apply upd_neq.
Qed.

(** * Resizing *)
Lemma wr_comm m t a v m1 m2 : t <> NextOf a -> wr_loc m (NextOf a) 0 = Ret m1 -> wr_loc m1 t v = Ret m2 ->
  exists m3 m4, wr_loc m t v = Ret m3 /\ wr_loc m3 (NextOf a) 0 = Ret m4 /\
    (forall y, hnodes m4 y = hnodes m2 y) /\ (forall b, hblocks m4 b = hblocks m2 b).
Proof.
  intros Nt W1 W2. cbn [wr_loc] in W1. unfold wr_node, rd_node in W1. destruct (hnodes m a) as [n|] eqn:E; [|discriminate]. cbn [bind] in W1.
  inversion W1; subst m1; clear W1. destruct t as [b i|p]; cbn [wr_loc] in W2 |- *.
  - unfold wr_block, rd_block in W2 |- *. cbn [hblocks] in W2. destruct (hblocks m b) as [x|] eqn:Ex; [|discriminate]. cbn [bind] in W2 |- *.
    destruct ((0 <=? i) && (i <? bcap x)); [|discriminate]. inversion W2; subst m2; clear W2.
    eexists. eexists. split; [reflexivity|]. cbn [wr_loc]. unfold wr_node, rd_node. cbn [hnodes]. rewrite E. cbn [bind]. split; [reflexivity|]. auto.
  - unfold wr_node, rd_node in W2 |- *. cbn [hnodes] in W2. assert (Np : p <> a) by congruence. rewrite upd_neq in W2 by auto.
    destruct (hnodes m p) as [n'|] eqn:Ep; [|discriminate]. cbn [bind] in W2 |- *. inversion W2; subst m2; clear W2.
    eexists. eexists. split; [reflexivity|]. cbn [wr_loc]. unfold wr_node, rd_node. cbn [hnodes]. rewrite upd_neq, E by auto. cbn [bind].
    split; [reflexivity|]. cbn [hnodes hblocks]. split; [|auto]. intros y. unfold upd. destruct (Z.eqb_spec y a), (Z.eqb_spec y p); congruence.
Qed.
Lemma lastloc_cases t c : lastloc t c = t \/ exists a, In a (addrs c) /\ lastloc t c = NextOf a.
Proof.
  revert t. induction c as [|[a e] c IH]; intros t; [now left|]. cbn [lastloc addrs map fst]. right.
  destruct (IH (NextOf a)) as [->|[x [I ->]]]; [exists a|exists x]; (split; [|reflexivity]); [now left|now right].
Qed.
Lemma move_ok : forall c m ncs nb N fuel F, chain m c 0 -> NoDup (addrs (c ++ concat ncs)) -> NoDup (keys (c ++ concat ncs)) ->
  rep0 m nb ncs N -> pure ncs -> (length c < fuel)%nat -> (length c + length (concat ncs) < F)%nat ->
  exists m' ncs', move_chain fuel F m nb (Z.of_nat (length ncs)) (hda c 0) = Ret m' /\ rep0 m' nb ncs' N /\ pure ncs' /\
    Permutation (concat ncs') (c ++ concat ncs) /\ length ncs' = length ncs /\
    (forall y, ~ In y (addrs (c ++ concat ncs)) -> hnodes m' y = hnodes m y) /\ (forall b', b' <> nb -> hblocks m' b' = hblocks m b').
Proof.
  induction c as [|[a [k v]] c IH]; intros m ncs nb N fuel F C NA NK R P Lf LF; (destruct fuel as [|fu]; [cbn in Lf; lia|]); cbn [move_chain hda].
  - exists m, ncs. cbn [app]. auto 10.
  - destruct C as [Nz [Q C]]. destruct (Z.eqb_spec a 0); [lia|]. unfold rd_node at 1. rewrite Q. cbn [bind nnext nkey].
    destruct (Hash_Locate_ok m nb ncs N k F R P) as [t [-> Lt]]; [cbn in LF; lia|]. cbn [bind]. unfold located in Lt.
    set (i := hashn (length ncs) k) in *. assert (Li : (i < length ncs)%nat) by (apply hashn_lt; exact (r_len _ _ _ _ R)).
    cbn [app keys map fst snd] in NK. inversion NK as [|? ? Nk NK']; subst. cbn [app addrs map fst] in NA. inversion NA as [|? ? Na NA']; subst.
    assert (Nk' : ~ In k (keys (concat ncs))).
    { intros I. apply Nk. change (In k (keys (c ++ concat ncs))). rewrite keys_app. apply in_or_app. now right. }
    assert (Na' : ~ In a (addrs (concat ncs))).
    { intros I. apply Na. change (In a (addrs (c ++ concat ncs))). rewrite addrs_app. apply in_or_app. now right. }
    destruct Lt as [[c1 [p [w [c2 [En _]]]]]|[_ [Et Rt]]].
    { exfalso. apply Nk'. apply in_keys_nth. exists i. split; [auto|]. rewrite En, keys_app. apply in_or_app. right. now left. }
    set (m1 := Hmem (upd (hnodes m) a (Some (Node 0 k v))) (hblocks m)).
    assert (W1 : wr_loc m (NextOf a) 0 = Ret m1).
    { cbn [wr_loc]. unfold wr_node, rd_node. rewrite Q. cbn [bind nkey nval]. reflexivity. }
    assert (R1 : rep0 m1 nb ncs N).
    { apply (rep0_frame m); [exact R| |reflexivity]. intros y I. unfold m1. cbn [hnodes]. apply upd_neq. congruence. }
    assert (En : nth i ncs [] = nth i ncs [] ++ []) by now rewrite app_nil_r.
    pose proof (perm_old ncs i _ _ Li En) as Po. cbn [app] in Po. pose proof (perm_new ncs i (nth i ncs []) [(a, (k, v))]) as Pn.
    assert (Pnew : Permutation (concat (setn ncs i (nth i ncs [] ++ [(a, (k, v))]))) ((a, (k, v)) :: concat ncs)).
    { rewrite Pn. cbn [app]. constructor. now rewrite <- Po. }
    destruct (relink m1 nb ncs N i (nth i ncs []) [] [(a, (k, v))] R1 Li En) as [m2 [W2 [R2 [N2 B2]]]].
    { cbn [chain hda]. split; [auto|]. split; [|exact I]. unfold m1. cbn [hnodes]. apply upd_eq. }
    { apply (perm_addrs _ _ (Permutation_sym Pnew)). cbn [addrs map fst]. constructor; [auto|exact (r_addr _ _ _ _ R)]. }
    cbn [hda] in W2. rewrite <- Et in W2.
    assert (Nt : t <> NextOf a).
    { rewrite Et. destruct (lastloc_cases (Slot nb (Z.of_nat i)) (nth i ncs [])) as [->|[x [I ->]]]; [discriminate|]. intros [= ->].
      apply Na'. apply in_addrs_nth. eauto. }
    destruct (wr_comm m t a a m1 m2 Nt W1 W2) as [m3 [m4 [W3 [W4 [H4 B4]]]]]. rewrite W3. cbn [bind]. rewrite W4. cbn [bind].
    set (ncs1 := setn ncs i (nth i ncs [] ++ [(a, (k, v))])) in *.
    assert (L1 : length ncs1 = length ncs) by (now apply setn_length).
    assert (Ho : forall y, y <> a -> ~ In y (addrs (concat ncs)) -> hnodes m4 y = hnodes m y).
    { intros y Ny Ny'. rewrite H4, N2.
      - unfold m1. cbn [hnodes]. now apply upd_neq.
      - intros I. apply Ny'. apply in_addrs_nth. eauto. }
    rewrite <- L1. destruct (IH m4 ncs1 nb N fu F) as [m' [ncs' [-> [R' [P' [Pm [L' [Hn Hb]]]]]]]].
    + apply (chain_frame m); [exact C|]. intros y I. apply Ho.
      * intros ->. apply Na. change (In a (addrs (c ++ concat ncs))). rewrite addrs_app. apply in_or_app. now left.
      * intros J. change (NoDup (addrs (c ++ concat ncs))) in NA'. rewrite addrs_app in NA'. apply NoDup_app_inv in NA' as [_ [_ D]]. exact (D y I J).
    + apply (perm_addrs ((a, (k, v)) :: c ++ concat ncs)); [|exact NA]. rewrite Pnew. apply Permutation_middle.
    + apply (perm_keys ((a, (k, v)) :: c ++ concat ncs)); [|exact NK]. rewrite Pnew. apply Permutation_middle.
    + apply (rep0_frame m2); [exact R2| |apply B4]. intros y _. apply H4.
    + apply (pure_setn ncs i (nth i ncs []) []); auto.
      * apply (perm_keys ((a, (k, v)) :: concat ncs)); [symmetry; exact Pnew|]. cbn [keys map fst snd]. constructor; [auto|exact (r_key _ P)].
      * intros k' [<-|[]]. reflexivity.
    + cbn in Lf. lia.
    + rewrite (Permutation_length Pnew). cbn in LF |- *. lia.
    + exists m', ncs'. split; [reflexivity|]. split; [exact R'|]. split; [exact P'|]. split; [|split; [exact L'|split]].
      * rewrite Pm, Pnew. symmetry. cbn [app]. apply Permutation_middle.
      * intros y Ny. rewrite Hn.
        -- apply Ho.
           ++ intros ->. apply Ny. now left.
           ++ intros I. apply Ny. cbn [app addrs map fst]. right. change (In y (addrs (c ++ concat ncs))). rewrite addrs_app. apply in_or_app. now right.
        -- intros I. apply Ny. apply (Permutation_in _ (Permutation_map fst (Permutation_app_head c Pnew))) in I.
           exact (Permutation_in _ (Permutation_map fst (Permutation_sym (Permutation_middle c (concat ncs) (a, (k, v))))) I).
      * intros b' Nb. rewrite Hb by auto. rewrite B4. rewrite B2 by auto. reflexivity.
Qed.

Lemma Realloc_ok m b f cs size a fuel : tbl m b f cs -> (length (concat cs) < fuel)%nat -> 1 <= size < W64 -> hblocks m a = None ->
  exists m' cs', Realloc_Table fuel m b size a = Ret (m', a) /\ tbl m' a f cs' /\ Z.of_nat (length cs') = size /\
    Permutation (concat cs') (concat cs) /\ hblocks m' b = None /\
    (forall x, ~ In x (addrs (concat cs)) -> hnodes m' x = hnodes m x) /\ (forall b', b' <> a -> b' <> b -> hblocks m' b' = hblocks m b').
Proof.
  intros T L Ls Fr. destruct (tbl_size_rd _ _ _ _ T) as [x [Rx [Sx Nx]]]. unfold Realloc_Table. rewrite Rx. cbn [bind].
  pose proof (t_rep _ _ _ _ T) as R. pose proof (r_len _ _ _ _ R) as Ln.
  assert (Hbm : hblocks m b = Some x) by (unfold rd_block in Rx; destruct (hblocks m b); congruence).
  assert (Nab : a <> b) by (intros ->; congruence).
  destruct (Alloc_ok m size a Ls) as [m1 [cs1 [-> [T1 [L1 [C1 [N1 B1]]]]]]]. cbn [bind].
  destruct (rep0_nb _ _ _ _ (fun _ => bnb x) (t_rep _ _ _ _ T1)) as [m2 [-> [R2 [N2 B2]]]]. cbn [bind].
  set (Inv := fun (i : nat) (m' : hmem) => hblocks m' b = Some x /\ (forall b', b' <> a -> hblocks m' b' = hblocks m b') /\
     (forall y, ~ In y (addrs (concat (firstn i cs))) -> hnodes m' y = hnodes m y) /\
     exists ncs, rep0 m' a ncs (bnb x) /\ pure ncs /\ Permutation (concat ncs) (concat (firstn i cs)) /\ Z.of_nat (length ncs) = size).
  rewrite Sx.
  destruct (do_slots_inv Inv (fun m i => do p <- rd_loc m (Slot b i); move_chain fuel fuel m a size p) (length cs) m2) as [m3 [-> I3]].
  { lia. }
  { split; [rewrite B2, B1 by auto; auto|]. split; [intros b' Nb; rewrite B2, B1 by auto; auto|]. split; [intros; now rewrite N2, N1|].
    exists cs1. split; [exact R2|]. split; [exact (t_pure _ _ _ _ T1)|]. cbn [firstn concat]. rewrite C1. auto. }
  { intros j mj Lj [J1 [J2 [J3 [ncs [J4 [J5 [J6 J7]]]]]]].
    assert (Rd : rd_loc mj (Slot b (Z.of_nat j)) = Ret (hda (nth j cs []) 0)).
    { pose proof (rd_slot _ _ _ _ _ R Lj) as Q. unfold rd_loc, rd_block in Q |- *. now rewrite J1, Hbm in *. }
    rewrite Rd. cbn [bind]. rewrite <- J7.
    assert (Pf : Permutation (nth j cs [] ++ concat ncs) (concat (firstn (S j) cs))).
    { rewrite (firstn_S_nth cs j [] Lj), concat_app. cbn [concat]. rewrite app_nil_r, J6. apply Permutation_app_comm. }
    assert (Sub : concat cs = concat (firstn (S j) cs) ++ concat (skipn (S j) cs)) by (rewrite <- concat_app, firstn_skipn; reflexivity).
    assert (Ll : (length (nth j cs []) + length (concat ncs) <= length (concat cs))%nat).
    { rewrite Sub, app_length, <- (Permutation_length Pf), app_length. lia. }
    destruct (move_ok (nth j cs []) mj ncs a (bnb x) fuel fuel) as [m' [ncs' [-> [G1 [G2 [G3 [G4 [G5 G6]]]]]]]]; auto; try lia.
    - apply (chain_frame m); [exact (r_chain _ _ _ _ R j Lj)|]. intros y I. apply J3. apply addrs_firstn_nin; auto. exact (r_addr _ _ _ _ R).
    - apply (perm_addrs _ _ (Permutation_sym Pf)). pose proof (r_addr _ _ _ _ R) as NA. rewrite Sub, addrs_app in NA. now apply NoDup_app_inv in NA.
    - apply (perm_keys _ _ (Permutation_sym Pf)). pose proof (r_key _ (t_pure _ _ _ _ T)) as NK. rewrite Sub, keys_app in NK. now apply NoDup_app_inv in NK.
    - exists m'. split; [reflexivity|]. split; [|split; [|split]].
      + rewrite G6 by auto. exact J1.
      + intros b' Nb. rewrite G6 by auto. auto.
      + intros y Ny. rewrite G5, J3; auto.
        * intros I. apply Ny. apply (addrs_firstn_S cs j y Lj). now left.
        * intros I. apply Ny. exact (Permutation_in _ (Permutation_map fst Pf) I).
      + exists ncs'. split; [auto|]. split; [auto|]. split; [now rewrite G3|]. now rewrite G4. }
  destruct I3 as [J1 [J2 [J3 [ncs [J4 [J5 [J6 J7]]]]]]]. rewrite firstn_all in J3, J6. cbn [bind].
  unfold free_block, rd_block. rewrite J1. cbn [bind]. eexists. exists ncs. split; [reflexivity|]. split; [|split; [exact J7|split; [exact J6|]]].
  - split; [|exact J5|].
    + rewrite (Permutation_length J6), <- Nx. apply (rep0_frame m3); [exact J4|reflexivity|]. cbn [hblocks]. now apply upd_neq.
    + intros k v. rewrite (t_map _ _ _ _ T). split; intros [y I]; exists y; [exact (Permutation_in _ (Permutation_sym J6) I)|exact (Permutation_in _ J6 I)].
  - cbn [hblocks hnodes]. split; [apply upd_eq|]. split; [exact J3|]. intros b' Na Nb. rewrite upd_neq by auto. auto.
Qed.
