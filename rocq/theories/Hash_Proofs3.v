(** Proofs about the generic hash table: histories and scans (C21). *)
Require Import ZArith List Bool Lia Permutation.
Require Import Verif.Heap_Model Verif.Hash_Model Verif.Hash_Spec Verif.Hash_Client Verif.Hash_Proofs Verif.Hash_Proofs2.
Import ListNotations.
Open Scope Z_scope.

Lemma W64_val : W64 = 18446744073709551616. Proof. reflexivity. Qed.
Lemma INT_MAX_val : INT_MAX = 2147483647. Proof. reflexivity. Qed.

Lemma op_ok m b f cs o fuel : tbl m b f cs -> (length (concat cs) < fuel)%nat -> legal_op m b o ->
  exists m' b' cs', run_op fuel m b o = Ret (m', b') /\ tbl m' b' (spec_op f o) cs' /\ (length (concat cs') <= S (length (concat cs)))%nat.
Proof.
  intros T L Lg. pose proof W64_val. pose proof INT_MAX_val. destruct o as [k v r a|k| |size a|a]; cbn [run_op spec_op legal_op] in *.
  - destruct Lg as [Fr Nz]. destruct (Insert_ok _ _ _ _ k v r a fuel T L Fr Nz) as [m' [p [cs' [-> [T' [_ [_ [_ [_ S']]]]]]]]]. cbn [bind].
    exists m', b, cs'. split; [reflexivity|]. split; [exact T'|].
    assert (Li : (hashn (length cs) k < length cs)%nat) by (apply hashn_lt; exact (r_len _ _ _ _ (t_rep _ _ _ _ T))).
    destruct S' as [[c1 [q [w [w' [c2 [En ->]]]]]]|[_ ->]]; rewrite concat_setn, !app_length; [|rewrite (concat_split cs _ Li), !app_length; cbn; lia].
    rewrite (concat_split cs _ Li), En, !app_length. cbn. lia.
  - destruct (Delete_ok _ _ _ _ k fuel T L) as [m' [r [cs' [-> [T' H']]]]]. cbn [bind]. exists m', b, cs'. split; [reflexivity|]. split; [exact T'|].
    destruct H' as [_ [_ [_ [H' _]]]].
    assert (Hi : incl (addrs (concat cs')) (addrs (concat cs))) by (intros y I; apply H'; now left).
    pose proof (NoDup_incl_length (r_addr _ _ _ _ (t_rep _ _ _ _ T')) Hi) as Q. unfold addrs in Q. rewrite !map_length in Q. lia.
  - destruct (Delete_All_ok _ _ _ _ fuel T L) as [m' [cs' [-> [T' [_ [C' _]]]]]]. cbn [bind]. exists m', b, cs'. split; [reflexivity|]. split; [exact T'|].
    rewrite C'. cbn. lia.
  - destruct Lg as [Fr Ls]. destruct (Realloc_ok _ _ _ _ size a fuel T L ltac:(lia) Fr) as [m' [cs' [-> [T' [_ [P' _]]]]]].
    exists m', a, cs'. split; [reflexivity|]. split; [exact T'|]. rewrite (Permutation_length P'). lia.
  - destruct Lg as [Fr Ls]. destruct (tbl_size_rd _ _ _ _ T) as [x [Rx [Sx _]]]. unfold Extend_If_Needed. rewrite Rx. cbn [bind].
    destruct (bsize x <=? bnb x).
    + assert (hblocks m b = Some x) as Hb by (unfold rd_block in Rx; destruct (hblocks m b); congruence). specialize (Ls x Hb).
      pose proof (r_len _ _ _ _ (t_rep _ _ _ _ T)).
      destruct (Realloc_ok _ _ _ _ (bsize x * 2) a fuel T L ltac:(lia) Fr) as [m' [cs' [-> [T' [_ [P' _]]]]]].
      exists m', a, cs'. split; [reflexivity|]. split; [exact T'|]. rewrite (Permutation_length P'). lia.
    + exists m, b, cs. auto.
Qed.
Lemma ops_ok : forall os m b f cs fuel, tbl m b f cs -> (length os + length (concat cs) < fuel)%nat -> legal_ops fuel m b os ->
  exists m' b' cs', run_ops fuel m b os = Ret (m', b') /\ tbl m' b' (spec_ops f os) cs' /\ (length (concat cs') <= length os + length (concat cs))%nat.
Proof.
  induction os as [|o os IH]; intros m b f cs fuel T L Lg; cbn [run_ops legal_ops length] in *.
  - exists m, b, cs. auto.
  - destruct Lg as [Lo Lg]. destruct (op_ok m b f cs o fuel T ltac:(lia) Lo) as [m' [b' [cs' [E [T' L']]]]]. rewrite E. cbn [bind].
    destruct (IH m' b' (spec_op f o) cs' fuel T' ltac:(lia) (Lg _ _ E)) as [m2 [b2 [cs2 [-> [T2 L2]]]]].
    exists m2, b2, cs2. split; [reflexivity|]. split; [exact T2|lia].
Qed.

(** * Scans *)
Definition kv (c : ch) : list (Z * Z) := map snd c.
Definition scanrep (b : Z) (cs : list ch) (s : scan) (rem : ch) : Prop :=
  exists t pre suf, s = Scan b (Z.of_nat (length cs)) (Z.of_nat t) (hda suf 0) /\ (t < length cs)%nat /\
    nth t cs [] = pre ++ suf /\ rem = suf ++ concat (skipn (S t) cs).
Lemma skipn_nth {A} (l : list A) i d : (i < length l)%nat -> skipn i l = nth i l d :: skipn (S i) l.
Proof.
  revert i. induction l as [|x l IH]; intros i L; [cbn in L; lia|]. destruct i as [|i]; [reflexivity|].
  change (skipn i l = nth i l d :: skipn (S i) l). apply IH. cbn in L. lia.
Qed.
Lemma next_loop_ok m b cs nb : rep0 m b cs nb -> forall n s t, sb s = b -> s_end s = Z.of_nat (length cs) -> (t < length cs)%nat ->
  (length cs - t <= n)%nat ->
  match concat (skipn (S t) cs) with
  | [] => next_loop n m s (Z.of_nat t) = Ret (0, s)
  | (a, (k, v)) :: rem' => exists s', next_loop n m s (Z.of_nat t) = Ret (a, s') /\ scanrep b cs s' rem' /\ a <> 0 /\ exists nx, hnodes m a = Some (Node nx k v)
  end.
Proof.
  intros R. induction n as [|n IH]; intros s t Eb Ee Lt Ln; [lia|]. cbn [next_loop]. rewrite Ee.
  destruct (Nat.eq_dec (S t) (length cs)) as [El|Nl].
  - rewrite El, skipn_all. cbn [concat]. destruct (Z.ltb_spec (Z.of_nat t + 1) (Z.of_nat (length cs))); [lia|reflexivity].
  - assert (L1 : (S t < length cs)%nat) by lia. rewrite (skipn_nth cs (S t) [] L1). cbn [concat].
    destruct (Z.ltb_spec (Z.of_nat t + 1) (Z.of_nat (length cs))); [|lia]. replace (Z.of_nat t + 1) with (Z.of_nat (S t)) by lia.
    rewrite Eb, (rd_slot _ _ _ _ _ R L1). cbn [bind]. pose proof (r_chain _ _ _ _ R (S t) L1) as C.
    destruct (nth (S t) cs []) as [|[a [k v]] c] eqn:En; cbn [hda app].
    + rewrite Z.eqb_refl. apply IH; auto; lia.
    + destruct C as [Nz [Q C]]. destruct (Z.eqb_spec a 0); [lia|]. unfold rd_node. rewrite Q. cbn [bind nnext].
      eexists. split; [reflexivity|]. split; [|split; [auto|eauto]]. exists (S t), [(a, (k, v))], c. rewrite <- ?Ee. auto.
Qed.
Lemma Next_ok m b cs nb s rem : rep0 m b cs nb -> scanrep b cs s rem ->
  match rem with
  | [] => Next m s = Ret (0, s)
  | (a, (k, v)) :: rem' => exists s', Next m s = Ret (a, s') /\ scanrep b cs s' rem' /\ a <> 0 /\ exists nx, hnodes m a = Some (Node nx k v)
  end.
Proof.
  intros R [t [pre [suf [-> [Lt [En ->]]]]]]. unfold Next. cbn [s_cur_p s_end s_cur_t]. destruct suf as [|[a [k v]] suf]; cbn [hda app].
  - cbn [Z.eqb negb]. apply (next_loop_ok m b cs nb R); auto. lia.
  - pose proof (r_chain _ _ _ _ R t Lt) as C. rewrite En in C. apply chain_app in C as [_ [Nz [Q C]]].
    destruct (Z.eqb_spec a 0); [lia|]. cbn [negb]. unfold rd_node. rewrite Q. cbn [bind nnext]. eexists. split; [reflexivity|].
    split; [|split; [auto|eauto]]. exists t, (pre ++ [(a, (k, v))]), suf. split; [reflexivity|]. split; [auto|]. split; [|auto].
    rewrite En, <- app_assoc. reflexivity.
Qed.
Lemma First_ok m b f cs : tbl m b f cs ->
  exists s0, scanrep b cs s0 (concat cs) /\ First m b = Next m s0.
Proof.
  intros T. destruct (tbl_size_rd _ _ _ _ T) as [x [Rx [Sx _]]]. unfold First. rewrite Rx. cbn [bind].
  pose proof (r_len _ _ _ _ (t_rep _ _ _ _ T)) as L. assert (L0 : (0 < length cs)%nat) by lia.
  change 0 with (Z.of_nat 0) at 1. rewrite (rd_slot _ _ _ _ _ (t_rep _ _ _ _ T) L0). cbn [bind].
  eexists. split; [|reflexivity]. exists O, [], (nth 0 cs []). rewrite Sx. split; [reflexivity|]. split; [auto|]. split; [reflexivity|].
  rewrite <- (skipn_O cs) at 1. rewrite (skipn_nth cs 0 [] L0). reflexivity.
Qed.

Lemma skipn_skipn' {A} (l : list A) i j : skipn i (skipn j l) = skipn (j + i) l.
Proof. revert j. induction l as [|x l IH]; intros j; [now rewrite !skipn_nil|]. destruct j as [|j]; [reflexivity|]. cbn [skipn plus]. apply IH. Qed.
Lemma skipn_setn {A} (l : list A) i x t : (i < length l)%nat ->
  skipn (S t) (setn l i x) = if (i <=? t)%nat then skipn (S t) l else setn (skipn (S t) l) (i - S t) x.
Proof.
  intros L. unfold setn. rewrite skipn_app, firstn_length. destruct (Nat.leb_spec i t).
  - rewrite (skipn_all2 (firstn i l)) by (rewrite firstn_length; lia). cbn [app].
    replace (S t - Nat.min i (length l))%nat with (S (t - i)) by lia.
    change (skipn (S (t - i)) (x :: skipn (S i) l)) with (skipn (t - i) (skipn (S i) l)).
    rewrite skipn_skipn'. f_equal. lia.
  - replace (S t - Nat.min i (length l))%nat with O by lia. change (skipn 0 (x :: skipn (S i) l)) with (x :: skipn (S i) l).
    rewrite firstn_skipn_comm, skipn_skipn'.
    replace (S t + (i - S t))%nat with i by lia. f_equal. f_equal. f_equal. lia.
Qed.
Lemma nth_skipn {A} (l : list A) i j d : nth j (skipn i l) d = nth (i + j) l d.
Proof.
  revert i. induction l as [|x l IH]; intros i; [rewrite skipn_nil; destruct j, i; reflexivity|].
  destruct i as [|i]; [reflexivity|]. cbn [skipn plus nth]. apply IH.
Qed.

Lemma scanrep_keys b cs s rem : scanrep b cs s rem -> exists p, concat cs = p ++ rem.
Proof.
  intros [t [pre [suf [_ [Lt [En ->]]]]]]. exists (concat (firstn t cs) ++ pre). rewrite (concat_split cs t Lt), En. now rewrite <- !app_assoc.
Qed.
Lemma scan_delete b cs cs' s rem k i : scanrep b cs s rem -> (i < length cs)%nat -> length cs' = length cs -> ~ In k (keys rem) ->
  (forall j, (j < length cs)%nat -> j <> i -> nth j cs' [] = nth j cs []) ->
  (forall c1 e c2, nth i cs [] = c1 ++ e :: c2 -> fst (snd e) = k -> nth i cs' [] = c1 ++ c2) ->
  In k (keys (nth i cs [])) -> scanrep b cs' s rem.
Proof.
  intros [t [pre [suf [-> [Lt [En ->]]]]]] Li Ll Nk F1 F2 Ik. rewrite keys_app in Nk.
  assert (Lit : (i <= t)%nat).
  { destruct (Nat.le_gt_cases i t) as [|Gt]; [auto|]. exfalso. apply Nk. apply in_or_app. right. apply in_keys_nth. exists (i - S t)%nat.
    split; [rewrite skipn_length; lia|]. rewrite nth_skipn. replace (S t + (i - S t))%nat with i by lia. exact Ik. }
  assert (Sk : skipn (S t) cs' = skipn (S t) cs).
  { apply (nth_ext _ _ [] []); rewrite !skipn_length; [now rewrite Ll|]. intros j Lj. rewrite !nth_skipn. apply F1; lia. }
  destruct (Nat.eq_dec i t) as [->|Nt].
  - rewrite En, keys_app in Ik. apply in_app_or in Ik as [Ik|Ik]; [|exfalso; apply Nk; apply in_or_app; now left].
    destruct (in_keys_split _ _ Ik) as [c1 [a [v [c2 [Ep _]]]]]. exists t, (c1 ++ c2), suf. rewrite Ll, Sk. split; [auto|]. split; [auto|]. split; [|auto].
    rewrite (F2 c1 (a, (k, v)) (c2 ++ suf)); [now rewrite app_assoc| |reflexivity]. rewrite En, Ep. now rewrite <- app_assoc.
  - exists t, pre, suf. rewrite Ll, Sk. split; [auto|]. split; [auto|]. split; [|auto]. rewrite F1; auto.
Qed.
Lemma scan_replace b cs s rem k i c1 p w w' c2 : scanrep b cs s rem -> (i < length cs)%nat -> nth i cs [] = c1 ++ (p, (k, w)) :: c2 ->
  exists rem', scanrep b (setn cs i (c1 ++ (p, (k, w')) :: c2)) s rem' /\ keys rem' = keys rem.
Proof.
  intros [t [pre [suf [-> [Lt [En ->]]]]]] Li Ec. pose proof (setn_length cs i (c1 ++ (p, (k, w')) :: c2) Li) as Ll.
  destruct (Nat.lt_trichotomy i t) as [Lit|[->|Git]].
  - exists (suf ++ concat (skipn (S t) cs)). split; [|auto]. exists t, pre, suf. rewrite Ll, nth_setn_neq by (auto; lia). rewrite skipn_setn by auto.
    destruct (Nat.leb_spec i t); [auto|lia].
  - assert (Hd : (exists l, pre = c1 ++ (p, (k, w)) :: l /\ c2 = l ++ suf) \/ (exists l, suf = l ++ (p, (k, w)) :: c2 /\ c1 = pre ++ l)).
    { rewrite En in Ec. clear - Ec. revert c1 Ec. induction pre as [|e pre IH]; intros c1 Ec; cbn [app] in Ec.
      - right. exists c1. auto.
      - destruct c1 as [|e' c1]; cbn [app] in Ec; inversion Ec as [[E1 E2]].
        + left. exists pre. auto.
        + destruct (IH c1 E2) as [[l [-> ->]]|[l [-> ->]]]; [left|right]; exists l; auto. }
    destruct Hd as [[l [-> ->]]|[l [-> ->]]].
    + exists (suf ++ concat (skipn (S t) cs)). split; [|auto]. exists t, (c1 ++ (p, (k, w')) :: l), suf. rewrite Ll, skipn_setn by auto.
      destruct (Nat.leb_spec t t); [|lia]. split; [auto|]. split; [auto|]. split; [|auto]. rewrite nth_setn_eq by auto. now rewrite <- app_assoc.
    + exists ((l ++ (p, (k, w')) :: c2) ++ concat (skipn (S t) cs)). split; [|now rewrite !keys_app].
      exists t, pre, (l ++ (p, (k, w')) :: c2). rewrite Ll, skipn_setn by auto. destruct (Nat.leb_spec t t); [|lia].
      split; [now rewrite !hda_app|]. split; [auto|]. split; [|auto]. rewrite nth_setn_eq by auto. now rewrite <- app_assoc.
  - exists (suf ++ concat (skipn (S t) (setn cs i (c1 ++ (p, (k, w')) :: c2)))). split.
    + exists t, pre, suf. rewrite Ll, nth_setn_neq by (auto; lia). auto.
    + rewrite skipn_setn by auto. destruct (Nat.leb_spec i t); [lia|]. rewrite !keys_app. f_equal. rewrite concat_setn.
      rewrite (concat_split (skipn (S t) cs) (i - S t)) by (rewrite skipn_length; lia). rewrite nth_skipn.
      replace (S t + (i - S t))%nat with i by lia. rewrite Ec. now rewrite !keys_app.
Qed.
Lemma scan_new b cs s rem k a v i : scanrep b cs s rem -> (i < length cs)%nat ->
  exists rem', scanrep b (setn cs i (nth i cs [] ++ [(a, (k, v))])) s rem' /\ (forall x, In x (keys rem) -> In x (keys rem')) /\
   (forall x, In x (keys rem') -> In x (keys rem) \/ x = k) /\ (length rem' <= S (length rem))%nat.
Proof.
  intros [t [pre [suf [-> [Lt [En ->]]]]]] Li. pose proof (setn_length cs i (nth i cs [] ++ [(a, (k, v))]) Li) as Ll.
  destruct (Nat.lt_trichotomy i t) as [Lit|[->|Git]].
  - exists (suf ++ concat (skipn (S t) cs)). split; [|auto]. exists t, pre, suf. rewrite Ll, nth_setn_neq by (auto; lia). rewrite skipn_setn by auto.
    destruct (Nat.leb_spec i t); [auto|lia].
  - destruct suf as [|e suf].
    + exists ([] ++ concat (skipn (S t) cs)). split; [|auto]. exists t, (pre ++ [(a, (k, v))]), []. rewrite Ll, skipn_setn by auto.
      destruct (Nat.leb_spec t t); [|lia]. split; [auto|]. split; [auto|]. split; [|auto]. rewrite nth_setn_eq by auto. rewrite En. now rewrite !app_nil_r.
    + exists (((e :: suf) ++ [(a, (k, v))]) ++ concat (skipn (S t) cs)). split; [|split; [|split]].
      * exists t, pre, ((e :: suf) ++ [(a, (k, v))]). rewrite Ll, skipn_setn by auto. destruct (Nat.leb_spec t t); [|lia].
        split; [destruct e; reflexivity|]. split; [auto|]. split; [|auto]. rewrite nth_setn_eq by auto. rewrite En. now rewrite <- app_assoc.
      * intros x. rewrite !keys_app, !in_app_iff. tauto.
      * intros x. rewrite !keys_app, !in_app_iff. cbn [keys map fst snd In]. intuition.
      * rewrite !app_length. cbn. lia.
  - set (cs' := setn cs i (nth i cs [] ++ [(a, (k, v))])) in *.
    assert (Pm : Permutation (concat (skipn (S t) cs')) ((a, (k, v)) :: concat (skipn (S t) cs))).
    { unfold cs'. rewrite skipn_setn by auto. destruct (Nat.leb_spec i t); [lia|].
      assert (L1 : (i - S t < length (skipn (S t) cs))%nat) by (rewrite skipn_length; lia).
      assert (En1 : nth (i - S t) (skipn (S t) cs) [] = nth i cs [] ++ []).
      { rewrite nth_skipn, app_nil_r. f_equal. lia. }
      rewrite (perm_new (skipn (S t) cs) (i - S t) (nth i cs []) [(a, (k, v))]). cbn [app]. constructor. symmetry.
      exact (perm_old _ _ _ _ L1 En1). }
    exists (suf ++ concat (skipn (S t) cs')). split; [|split; [|split]].
    + exists t, pre, suf. rewrite Ll. split; [auto|]. split; [auto|]. split; [|auto].
      unfold cs'. rewrite nth_setn_neq by (auto; lia). exact En.
    + intros x. rewrite !keys_app, !in_app_iff. intros [I|I]; [now left|]. right.
      apply (Permutation_in _ (Permutation_map _ (Permutation_sym Pm))). now right.
    + intros x. rewrite !keys_app, !in_app_iff. intros [I|I]; [now left; left|]. apply (Permutation_in _ (Permutation_map _ Pm)) in I.
      destruct I as [I|I]; [now right|]. left. now right.
    + rewrite !app_length, (Permutation_length Pm). cbn. lia.
Qed.

Definition dis (l1 l2 : list Z) : Prop := forall x, In x l1 -> ~ In x l2.
Lemma tbl_some_in m b f cs k : tbl m b f cs -> f k <> None -> In k (keys (concat cs)).
Proof.
  intros T N. destruct (in_dec Z.eq_dec k (keys (concat cs))) as [|Nk]; [auto|]. exfalso. apply N. now apply (t_none _ _ _ _ _ T).
Qed.
Lemma scan_ops_ok : forall os m b f cs s rem seen fuel, tbl m b f cs -> scanrep b cs s rem -> dis seen (keys rem) ->
  scan_ops fuel m b f seen os -> (length os + length (concat cs) < fuel)%nat ->
  exists m' cs' rem', run_ops fuel m b os = Ret (m', b) /\ tbl m' b (spec_ops f os) cs' /\ scanrep b cs' s rem' /\ dis seen (keys rem') /\
    (forall x, In x (keys rem) -> In x (keys rem')) /\ (length rem' <= length os + length rem)%nat /\
    (length (concat cs') <= length os + length (concat cs))%nat.
Proof.
  induction os as [|o os IH]; intros m b f cs s rem seen fuel T Sr D Lg Lf; cbn [run_ops length] in *.
  - exists m, cs, rem. auto 10.
  - cbn [scan_ops] in Lg. destruct Lg as [Lo [So Lg]].
    assert (St : exists m1 cs1 rem1, run_op fuel m b o = Ret (m1, b) /\ tbl m1 b (spec_op f o) cs1 /\ scanrep b cs1 s rem1 /\ dis seen (keys rem1) /\
       (forall x, In x (keys rem) -> In x (keys rem1)) /\ (length rem1 <= S (length rem))%nat /\ (length (concat cs1) <= S (length (concat cs)))%nat).
    { destruct o as [k v r a|k| |size a|a]; cbn [scan_op] in So; try contradiction.
      - destruct (op_ok m b f cs (OInsert k v r a) fuel T ltac:(lia) Lo) as [m1 [b1 [cs1 [E1 [T1 L1]]]]].
        cbn [legal_op] in Lo. destruct Lo as [Fr Nz]. destruct (Insert_ok _ _ _ _ k v r a fuel T ltac:(lia) Fr Nz) as [m' [p [cs' [E' [T' [_ [_ [_ [_ S']]]]]]]]].
        assert (E2 : run_op fuel m b (OInsert k v r a) = Ret (m', b)) by (cbn [run_op]; now rewrite E').
        assert (Li : (hashn (length cs) k < length cs)%nat) by (apply hashn_lt; exact (r_len _ _ _ _ (t_rep _ _ _ _ T))).
        assert (Lc : (length (concat cs') <= S (length (concat cs)))%nat).
        { destruct S' as [[c1 [q [w [w' [c2 [En ->]]]]]]|[_ ->]]; rewrite concat_setn, !app_length; [|rewrite (concat_split cs _ Li), !app_length; cbn; lia].
          rewrite (concat_split cs _ Li), En, !app_length. cbn. lia. }
        destruct S' as [[c1 [q [w [w' [c2 [En Ecs]]]]]]|[Fk Ecs]].
        + destruct (scan_replace b cs s rem k _ c1 q w w' c2 Sr Li En) as [rem' [Sr' Kr]]. rewrite <- Ecs in Sr'.
          exists m', cs', rem'. split; [exact E2|]. split; [exact T'|]. split; [exact Sr'|]. unfold dis. rewrite Kr. split; [exact D|]. split; [auto|]. split; [|exact Lc].
          assert (length rem' = length rem) by (unfold keys in Kr; apply (f_equal (@length Z)) in Kr; now rewrite !map_length in Kr). lia.
        + destruct (scan_new b cs s rem k a v _ Sr Li) as [rem' [Sr' [K1 [K2 K3]]]]. rewrite <- Ecs in Sr'.
          exists m', cs', rem'. split; [exact E2|]. split; [exact T'|]. split; [exact Sr'|]. split; [|auto].
          intros x Ix Jx. destruct (K2 x Jx) as [J| ->]; [exact (D x Ix J)|]. destruct So; [contradiction|congruence].
      - destruct (Delete_ok _ _ _ _ k fuel T ltac:(lia)) as [m' [r [cs' [E' [T' [Ll [_ [_ [Ha [_ [F1 [F2 F3]]]]]]]]]]]].
        assert (E2 : run_op fuel m b (ODelete k) = Ret (m', b)) by (cbn [run_op]; now rewrite E').
        assert (Li : (hashn (length cs) k < length cs)%nat) by (apply hashn_lt; exact (r_len _ _ _ _ (t_rep _ _ _ _ T))).
        assert (Lc : (length (concat cs') <= S (length (concat cs)))%nat).
        { assert (Hi : incl (addrs (concat cs')) (addrs (concat cs))) by (intros y I; apply Ha; now left).
          pose proof (NoDup_incl_length (r_addr _ _ _ _ (t_rep _ _ _ _ T')) Hi) as Q. unfold addrs in Q. rewrite !map_length in Q. lia. }
        exists m', cs', rem. split; [exact E2|]. split; [exact T'|]. split; [|auto].
        destruct (f k) as [v|] eqn:Fk; [|now rewrite F3].
        apply (scan_delete b cs cs' s rem k (hashn (length cs) k)); auto.
        assert (Ik : In k (keys (concat cs))) by (apply (tbl_some_in _ _ _ _ _ T); congruence).
        apply in_keys_nth in Ik as [j [Lj Ij]]. now rewrite (r_hash _ (t_pure _ _ _ _ T) j Lj k Ij). }
    destruct St as [m1 [cs1 [rem1 [E1 [T1 [S1 [D1 [K1 [L1 L2]]]]]]]]]. rewrite E1. cbn [bind].
    destruct (IH m1 b _ cs1 s rem1 seen fuel T1 S1 D1 (Lg _ _ E1) ltac:(lia)) as [m2 [cs2 [rem2 [-> [T2 [S2 [D2 [K2 [L3 L4]]]]]]]]].
    exists m2, cs2, rem2. split; [reflexivity|]. split; [exact T2|]. split; [exact S2|]. split; [exact D2|]. split; [auto|]. lia.
Qed.
Lemma spec_ops_inv : forall os f k v, spec_ops f os k = Some v -> f k = Some v \/ exists r a, In (OInsert k v r a) os.
Proof.
  induction os as [|o os IH]; intros f k v Q; [now left|]. change (spec_ops (spec_op f o) os k = Some v) in Q.
  destruct (IH _ _ _ Q) as [E|[r [a I]]]; [|right; exists r, a; now right].
  destruct o as [k' v' r a|k'| |size a|a]; cbn [spec_op] in E; auto; try discriminate.
  - unfold m_insert, m_set in E. destruct (f k') as [w|] eqn:F.
    + destruct r; [|now left]. destruct (Z.eqb_spec k k') as [->|]; [|now left]. right. inversion E; subst. exists true, a. now left.
    + destruct (Z.eqb_spec k k') as [->|]; [|now left]. right. inversion E; subst. exists r, a. now left.
  - unfold m_del in E. destruct (Z.eqb_spec k k'); [discriminate|now left].
Qed.
Lemma visit_ok : forall n m b f cs s rem seen script fuel, tbl m b f cs -> scanrep b cs s rem -> dis seen (keys rem) ->
  (forall p s', Next m s = Ret (p, s') -> legal_visit n fuel m b f seen p s' script) ->
  (length (concat script) + length (concat cs) < fuel)%nat ->
  exists l fin m', (do (p, s') <- Next m s; visit n fuel m b p s' script) = Ret (l, fin, m') /\
    NoDup (map fst l) /\ (forall k, In k (map fst l) -> ~ In k seen) /\
    (fin = true -> forall k, In k (keys rem) -> In k (map fst l)) /\
    (forall k v, In (k, v) l -> f k = Some v \/ exists r a, In (OInsert k v r a) (concat script)) /\
    (exists cs', tbl m' b (spec_ops f (concat (firstn (length l) script))) cs') /\
    ((length (concat script) + length rem <= n)%nat -> fin = true).
Proof.
  induction n as [|n IH]; intros m b f cs s rem seen script fuel T Sr D Lg Lf; pose proof (Next_ok m b cs _ s rem (t_rep _ _ _ _ T) Sr) as N;
    destruct rem as [|[a [k v]] rem].
  - rewrite N. cbn [bind visit]. rewrite Z.eqb_refl. exists [], true, m. split; [reflexivity|]. split; [constructor|]. split; [intros k []|].
    split; [intros _ k []|]. split; [intros k v []|]. split; [exists cs; exact T|auto].
  - destruct N as [s' [-> [_ [Nz _]]]]. cbn [bind visit]. destruct (Z.eqb_spec a 0); [lia|]. exists [], false, m.
    split; [reflexivity|]. split; [constructor|]. split; [intros ? []|].
    split; [discriminate|]. split; [intros ? ? []|]. split; [exists cs; exact T|]. cbn. lia.
  - rewrite N. cbn [bind visit]. rewrite Z.eqb_refl. exists [], true, m. split; [reflexivity|]. split; [constructor|]. split; [intros k []|].
    split; [intros _ k []|]. split; [intros k v []|]. split; [exists cs; exact T|auto].
  - destruct N as [s' [E [Sr' [Nz [nx Q]]]]]. specialize (Lg _ _ E). rewrite E. cbn [bind visit]. destruct (Z.eqb_spec a 0); [lia|].
    cbn [legal_visit] in Lg. destruct Lg as [?|Lg]; [lia|]. assert (Rn : rd_node m a = Ret (Node nx k v)) by (unfold rd_node; now rewrite Q).
    specialize (Lg _ Rn). rewrite Rn. cbn [bind nkey nval] in *. destruct Lg as [Lo Lg].
    destruct (scanrep_keys _ _ _ _ Sr) as [pp Ec]. pose proof (r_key _ (t_pure _ _ _ _ T)) as NK. rewrite Ec, keys_app in NK.
    apply NoDup_app_inv in NK as [_ [NK _]]. cbn [keys map fst snd] in NK. inversion NK as [|? ? Nk NK']; subst.
    assert (D' : dis (k :: seen) (keys rem)).
    { intros x [<-|I] J; [exact (Nk J)|]. apply (D x I). now right. }
    assert (Ls : concat script = hd [] script ++ concat (tl script)) by (destruct script; reflexivity).
    rewrite Ls, app_length in Lf.
    destruct (scan_ops_ok (hd [] script) m b f cs s' rem (k :: seen) fuel T Sr' D' Lo ltac:(lia)) as [m1 [cs1 [rem1 [E1 [T1 [S1 [D1 [K1 [L1 L2]]]]]]]]].
    rewrite E1. cbn [bind].
    destruct (IH m1 b _ cs1 s' rem1 (k :: seen) (tl script) fuel T1 S1 D1) as [l [fin [m' [EV [G1 [G2 [G3 [G4 [G5 G6]]]]]]]]].
    { intros p1 s1 En. exact (Lg _ _ _ _ E1 En). }
    { lia. }
    destruct (Next m1 s') as [[p1 s1]| |]; try discriminate. cbn [bind] in EV |- *. rewrite EV. cbn [bind].
    exists ((k, v) :: l), fin, m'. split; [reflexivity|]. cbn [map fst]. split; [|split; [|split; [|split; [|split]]]].
    + constructor; [|exact G1]. intros I. apply (G2 k I). now left.
    + intros x [<-|I] J.
      * apply (D k J). now left.
      * apply (G2 x I). now right.
    + intros Ef x. cbn [keys map fst snd]. intros [<-|I]; [now left|]. right. apply G3; auto.
    + intros x y [[= <- <-]|I].
      * left. apply (t_map _ _ _ _ T). exists a. rewrite Ec. apply in_or_app. right. now left.
      * rewrite Ls. destruct (G4 x y I) as [Q'|[r [aa I']]].
        -- destruct (spec_ops_inv _ _ _ _ Q') as [|[r [aa I']]]; [now left|]. right. exists r, aa. apply in_or_app. now left.
        -- right. exists r, aa. apply in_or_app. now right.
    + destruct G5 as [cs' T']. exists cs'. destruct script as [|o script]; cbn [length firstn concat hd tl] in *.
      * rewrite firstn_nil in T'. exact T'.
      * unfold spec_ops in *. rewrite fold_left_app. exact T'.
    + intros Ln. apply G6. rewrite Ls, app_length in Ln. cbn [length] in Ln. lia.
Qed.
Lemma scan_table_ok n m b f cs script fuel : tbl m b f cs -> legal_scan n fuel m b f script ->
  (length (concat script) + length (concat cs) < fuel)%nat ->
  exists l fin m', scan_table n fuel m b script = Ret (l, fin, m') /\ NoDup (map fst l) /\
    (fin = true -> forall k, f k <> None -> In k (map fst l)) /\
    (forall k v, In (k, v) l -> f k = Some v \/ exists r a, In (OInsert k v r a) (concat script)) /\
    (exists cs', tbl m' b (spec_ops f (concat (firstn (length l) script))) cs') /\
    ((length (concat script) + length (concat cs) <= n)%nat -> fin = true).
Proof.
  intros T Lg Lf. destruct (First_ok _ _ _ _ T) as [s0 [Sr E0]]. unfold scan_table. rewrite E0.
  destruct (visit_ok n m b f cs s0 (concat cs) [] script fuel T Sr) as [l [fin [m' [EV [G1 [_ [G3 [G4 [G5 G6]]]]]]]]]; auto.
  - intros x [].
  - intros p s' Q. apply Lg. now rewrite E0.
  - exists l, fin, m'. split; [exact EV|]. split; [exact G1|]. split; [|auto]. intros Ef k Nk. apply G3; [auto|]. exact (tbl_some_in _ _ _ _ _ T Nk).
Qed.
