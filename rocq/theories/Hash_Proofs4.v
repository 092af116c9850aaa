(** Proofs about the generic hash table: it touches and frees exactly what it allocated (C21). *)
Require Import ZArith List Bool Lia Permutation.
Require Import Verif.Heap_Model Verif.Hash_Model Verif.Hash_Spec Verif.Hash_Client Verif.Hash_Proofs Verif.Hash_Proofs2 Verif.Hash_Proofs3.
Import ListNotations.
Open Scope Z_scope.

(** [m] is [m0] plus the block and the nodes of the table *)
Record own (m0 m : hmem) (b : Z) (cs : list ch) : Prop := {
  o_out : forall x, ~ In x (addrs (concat cs)) -> hnodes m x = hnodes m0 x;
  o_in : forall x, In x (addrs (concat cs)) -> hnodes m0 x = None;
  o_blk : forall b', b' <> b -> hblocks m b' = hblocks m0 b';
  o_b : hblocks m0 b = None
}.
Lemma tbl_block m b f cs : tbl m b f cs -> hblocks m b <> None.
Proof. intros T. destruct (r_blk _ _ _ _ (t_rep _ _ _ _ T)) as [x [-> _]]. discriminate. Qed.
Lemma realloc_own m0 m b f cs size a fuel : tbl m b f cs -> own m0 m b cs -> (length (concat cs) < fuel)%nat -> 1 <= size <= INT_MAX -> hblocks m a = None ->
  exists m' cs', Realloc_Table fuel m b size a = Ret (m', a) /\ tbl m' a f cs' /\ own m0 m' a cs' /\ length (concat cs') = length (concat cs).
Proof.
  intros T W L Ls Fr. pose proof W64_val. pose proof INT_MAX_val.
  destruct (Realloc_ok _ _ _ _ size a fuel T L ltac:(lia) Fr) as [m' [cs' [E [T' [_ [P' [Hb [Hn Hbl]]]]]]]].
  exists m', cs'. split; [exact E|]. split; [exact T'|]. split; [|now apply Permutation_length].
  assert (Hi : forall x, In x (addrs (concat cs')) <-> In x (addrs (concat cs))).
  { intros x. unfold addrs. split; apply Permutation_in; apply Permutation_map; [exact P'|now apply Permutation_sym]. }
  assert (Nab : a <> b) by (intros ->; exact (tbl_block _ _ _ _ T Fr)).
  split.
  - intros x N. rewrite Hn; [apply (o_out _ _ _ _ W)|]; now rewrite <- Hi.
  - intros x I. apply (o_in _ _ _ _ W). now apply Hi.
  - intros b' N. destruct (Z.eq_dec b' b) as [->|Nb]; [rewrite Hb; symmetry; exact (o_b _ _ _ _ W)|].
    rewrite Hbl by auto. now apply (o_blk _ _ _ _ W).
  - rewrite <- (o_blk _ _ _ _ W a Nab). exact Fr.
Qed.
Lemma tbl_len m b f cs f' cs' : tbl m b f cs -> tbl m b f' cs' -> length (concat cs) = length (concat cs').
Proof.
  intros T T'. destruct (tbl_size_rd _ _ _ _ T) as [x [Rx [_ Sx]]]. destruct (tbl_size_rd _ _ _ _ T') as [x' [Rx' [_ Sx']]].
  assert (x = x') by congruence. subst. lia.
Qed.
Lemma op_own m0 m b f cs o fuel : tbl m b f cs -> own m0 m b cs -> (length (concat cs) < fuel)%nat -> legal_op m b o ->
  exists m' b' cs', run_op fuel m b o = Ret (m', b') /\ tbl m' b' (spec_op f o) cs' /\ own m0 m' b' cs' /\ (length (concat cs') <= S (length (concat cs)))%nat.
Proof.
  intros T W L Lg. destruct (op_ok m b f cs o fuel T L Lg) as [m1 [b1 [cs1 [E1 [T1 L1]]]]].
  destruct o as [k v r a|k| |size a|a]; cbn [run_op spec_op legal_op] in *.
  - destruct Lg as [Fr Nz]. destruct (Insert_ok _ _ _ _ k v r a fuel T L Fr Nz) as [m' [p [cs' [E [T' [_ [_ [O' [A' S']]]]]]]]].
    rewrite E in E1 |- *. cbn [bind] in *. exists m', b, cs'. split; [reflexivity|]. split; [exact T'|].
    assert (m1 = m') by congruence. assert (b1 = b) by congruence. subst m1 b1. rewrite (tbl_len _ _ _ _ _ _ T' T1). split; [|exact L1].
    assert (Na : ~ In a (addrs (concat cs))) by (intros I; destruct (alloc_addr _ _ _ _ _ T I); congruence).
    destruct O' as [On Ob]. split.
    + intros x N. rewrite On.
      * apply (o_out _ _ _ _ W). intros I. apply N, A'. now left.
      * intros Q. apply N, A'. exact Q.
    + intros x I. apply A' in I as [I|[_ ->]]; [now apply (o_in _ _ _ _ W)|]. rewrite <- (o_out _ _ _ _ W a Na). exact Fr.
    + intros b' N. rewrite Ob by auto. now apply (o_blk _ _ _ _ W).
    + exact (o_b _ _ _ _ W).
  - destruct (Delete_ok _ _ _ _ k fuel T L) as [m' [r [cs' [E [T' [_ [_ [[On Ob] [A' _]]]]]]]]].
    rewrite E in E1 |- *. cbn [bind] in *. exists m', b, cs'. split; [reflexivity|]. split; [exact T'|].
    assert (m1 = m') by congruence. assert (b1 = b) by congruence. subst m1 b1. rewrite (tbl_len _ _ _ _ _ _ T' T1). split; [|exact L1].
    split.
    + intros x N. destruct (in_dec Z.eq_dec x (addrs (concat cs))) as [I|Nx].
      * apply A' in I as [I|[I Q]]; [contradiction|]. rewrite Q. symmetry. now apply (o_in _ _ _ _ W).
      * rewrite On by auto. now apply (o_out _ _ _ _ W).
    + intros x I. apply (o_in _ _ _ _ W), A'. now left.
    + intros b' N. rewrite Ob by auto. now apply (o_blk _ _ _ _ W).
    + exact (o_b _ _ _ _ W).
  - destruct (Delete_All_ok _ _ _ _ fuel T L) as [m' [cs' [E [T' [_ [C' [Hd [On Ob]]]]]]]].
    rewrite E. cbn [bind]. exists m', b, cs'. split; [reflexivity|]. split; [exact T'|]. rewrite C'. split; [|cbn; lia].
    split; rewrite ?C'.
    + intros x _. destruct (in_dec Z.eq_dec x (addrs (concat cs))) as [I|Nx].
      * rewrite Hd by auto. symmetry. now apply (o_in _ _ _ _ W).
      * rewrite On by auto. now apply (o_out _ _ _ _ W).
    + intros x [].
    + intros b' N. rewrite Ob by auto. now apply (o_blk _ _ _ _ W).
    + exact (o_b _ _ _ _ W).
  - destruct Lg as [Fr Ls]. destruct (realloc_own m0 _ _ _ _ size a fuel T W L Ls Fr) as [m' [cs' [E [T' [W' L']]]]].
    exists m', a, cs'. split; [exact E|]. split; [exact T'|]. split; [exact W'|lia].
  - destruct Lg as [Fr Ls]. destruct (tbl_size_rd _ _ _ _ T) as [x [Rx [Sx _]]]. unfold Extend_If_Needed. rewrite Rx. cbn [bind].
    destruct (bsize x <=? bnb x).
    + assert (hblocks m b = Some x) as Hb by (unfold rd_block in Rx; destruct (hblocks m b); congruence). specialize (Ls x Hb).
      pose proof (r_len _ _ _ _ (t_rep _ _ _ _ T)).
      destruct (realloc_own m0 _ _ _ _ (bsize x * 2) a fuel T W L ltac:(lia) Fr) as [m' [cs' [E [T' [W' L']]]]].
      exists m', a, cs'. split; [exact E|]. split; [exact T'|]. split; [exact W'|lia].
    + exists m, b, cs. auto.
Qed.
Lemma ops_own : forall os m0 m b f cs fuel, tbl m b f cs -> own m0 m b cs -> (length os + length (concat cs) < fuel)%nat -> legal_ops fuel m b os ->
  exists m' b' cs', run_ops fuel m b os = Ret (m', b') /\ tbl m' b' (spec_ops f os) cs' /\ own m0 m' b' cs' /\ (length (concat cs') <= length os + length (concat cs))%nat.
Proof.
  induction os as [|o os IH]; intros m0 m b f cs fuel T W L Lg; cbn [run_ops legal_ops length] in *.
  - exists m, b, cs. auto.
  - destruct Lg as [Lo Lg]. destruct (op_own m0 m b f cs o fuel T W ltac:(lia) Lo) as [m' [b' [cs' [E [T' [W' L']]]]]]. rewrite E. cbn [bind].
    destruct (IH m0 m' b' (spec_op f o) cs' fuel T' W' ltac:(lia) (Lg _ _ E)) as [m2 [b2 [cs2 [-> [T2 [W2 L2]]]]]].
    exists m2, b2, cs2. split; [reflexivity|]. split; [exact T2|]. split; [exact W2|lia].
Qed.
Lemma Alloc_own m size a : 1 <= size <= INT_MAX -> hblocks m a = None ->
  exists m' cs, Alloc_Table m size a = Ret (m', a) /\ tbl m' a m_empty cs /\ own m m' a cs /\ concat cs = [].
Proof.
  intros L Fr. pose proof W64_val. pose proof INT_MAX_val. destruct (Alloc_ok m size a ltac:(lia)) as [m' [cs [E [T [_ [C [Hn Hb]]]]]]].
  exists m', cs. split; [exact E|]. split; [exact T|]. split; [|exact C]. split; rewrite ?C.
  - intros x _. now rewrite Hn.
  - intros x [].
  - exact Hb.
  - exact Fr.
Qed.
Lemma Free_own m0 m b f cs fuel : tbl m b f cs -> own m0 m b cs -> (length (concat cs) < fuel)%nat ->
  exists m', Free_Table fuel m b = Ret m' /\ (forall x, hnodes m' x = hnodes m0 x) /\ (forall x, hblocks m' x = hblocks m0 x).
Proof.
  intros T W L. destruct (Free_Table_ok _ _ _ _ fuel T L) as [m' [E [Hb [Hn [On Ob]]]]]. exists m'. split; [exact E|]. split; intros x.
  - destruct (in_dec Z.eq_dec x (addrs (concat cs))) as [I|Nx].
    + rewrite Hn by auto. symmetry. now apply (o_in _ _ _ _ W).
    + rewrite On by auto. now apply (o_out _ _ _ _ W).
  - destruct (Z.eq_dec x b) as [->|N]; [rewrite Hb; symmetry; exact (o_b _ _ _ _ W)|]. rewrite Ob by auto. now apply (o_blk _ _ _ _ W).
Qed.
(** what can be observed of a table that represents a map *)
Lemma tbl_list m b f cs : tbl m b f cs -> m_list f (kv (concat cs)).
Proof.
  intros T. split.
  - pose proof (r_key _ (t_pure _ _ _ _ T)) as K. unfold keys, kv in *. now rewrite map_map.
  - intros k v. rewrite (t_map _ _ _ _ T). unfold kv. split.
    + intros [a I]. apply in_map_iff. now exists (a, (k, v)).
    + intros I. apply in_map_iff in I as [[a q] [E I]]. cbn in E. subst. now exists a.
Qed.
(** the number of elements is bounded by the number of insertions *)
Definition ins_keys (os : list op) : list Z := flat_map (fun o => match o with OInsert k _ _ _ => [k] | _ => [] end) os.
Lemma ins_keys_len os : (length (ins_keys os) <= length os)%nat.
Proof. unfold ins_keys. induction os as [|[] os IH]; cbn [flat_map app length]; lia. Qed.
Lemma spec_ops_dom : forall os f k, spec_ops f os k <> None -> f k <> None \/ In k (ins_keys os).
Proof.
  induction os as [|o os IH]; intros f k Q; [now left|]. unfold spec_ops in Q. cbn [fold_left] in Q. fold (spec_ops (spec_op f o) os) in Q.
  destruct (IH _ _ Q) as [A|A]; [|right; destruct o; cbn; auto].
  destruct o as [k2 v r a|k2| |size a|a]; cbn [spec_op] in A; [| | |now left|now left].
  - unfold m_insert, m_set in A. cbn. destruct (f k2) eqn:E; [destruct r|]; auto; destruct (Z.eqb_spec k k2); subst; auto.
  - unfold m_del in A. destruct (k =? k2); [congruence|auto].
  - unfold m_empty in A. congruence.
Qed.
Lemma tbl_bound m b f cs m' b' os cs' : tbl m b f cs -> tbl m' b' (spec_ops f os) cs' -> (length (concat cs') <= length (concat cs) + length os)%nat.
Proof.
  intros T T'. assert (H : incl (keys (concat cs')) (keys (concat cs) ++ ins_keys os)).
  { intros k I. apply in_or_app. assert (Q : spec_ops f os k <> None) by (intros Q; apply (t_none _ _ _ _ _ T') in Q; contradiction).
    destruct (spec_ops_dom _ _ _ Q) as [A|A]; [left|now right]. destruct (in_dec Z.eq_dec k (keys (concat cs))); auto.
    exfalso. apply A. now apply (t_none _ _ _ _ _ T). }
  apply NoDup_incl_length in H; [|exact (r_key _ (t_pure _ _ _ _ T'))]. rewrite app_length in H. unfold keys in H. rewrite !map_length in H.
  pose proof (ins_keys_len os). lia.
Qed.
Lemma firstn_concat_len {A} : forall n (l : list (list A)), (length (concat (firstn n l)) <= length (concat l))%nat.
Proof. induction n as [|n IH]; intros [|x l]; cbn; rewrite ?app_length; try lia. specialize (IH l). lia. Qed.
