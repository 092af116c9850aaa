(** Proofs about the generic hash table (C21). *)
Require Import ZArith List Bool Lia Permutation.
Require Import Verif.Heap_Model Verif.Hash_Model Verif.Hash_Spec.
Import ListNotations.
Open Scope Z_scope.

(** a chain: addresses, keys and values *)
Notation ch := (list (Z * (Z * Z))).
Definition addrs (c : ch) : list Z := map fst c.
Definition keys (c : ch) : list Z := map (fun e => fst (snd e)) c.
Definition hda (c : ch) (e : Z) : Z := match c with [] => e | (a, _) :: _ => a end.
Fixpoint chain (m : hmem) (c : ch) (e : Z) : Prop :=
  match c with
  | [] => True
  | (a, (k, v)) :: c' => a <> 0 /\ hnodes m a = Some (Node (hda c' e) k v) /\ chain m c' e
  end.
Fixpoint lastloc (t : loc) (c : ch) : loc :=
  match c with [] => t | (a, _) :: c' => lastloc (NextOf a) c' end.

Lemma upd_eq {A} (f : Z -> A) a v : upd f a v a = v.
Proof. unfold upd. now rewrite Z.eqb_refl. Qed.
Lemma upd_neq {A} (f : Z -> A) a v x : x <> a -> upd f a v x = f x.
Proof. unfold upd. now destruct (Z.eqb_spec x a). Qed.

Lemma chain_app m c1 c2 e : chain m (c1 ++ c2) e <-> chain m c1 (hda c2 e) /\ chain m c2 e.
Proof.
  induction c1 as [|[a [k v]] c1 IH]; cbn [app chain]; [tauto|].
  rewrite IH. assert (hda (c1 ++ c2) e = hda c1 (hda c2 e)) as ->; [|tauto]. destruct c1 as [|[? ?] ?]; reflexivity.
Qed.
Lemma hda_app c1 c2 e : hda (c1 ++ c2) e = hda c1 (hda c2 e).
Proof. destruct c1 as [|[? ?] ?]; reflexivity. Qed.
Lemma chain_frame m m' c e : chain m c e -> (forall a, In a (addrs c) -> hnodes m' a = hnodes m a) -> chain m' c e.
Proof.
  induction c as [|[a [k v]] c IH]; cbn [chain addrs map fst]; [auto|]. intros [N [Q C]] F.
  split; [auto|]. split; [rewrite F; [auto|now left]|]. apply IH; [auto|]. intros x I. apply F. now right.
Qed.
Lemma chain_nz m c e a : chain m c e -> In a (addrs c) -> a <> 0.
Proof.
  induction c as [|[b [k v]] c IH]; cbn [chain addrs map fst]; [intros _ []|]. intros [N [Q C]] [<-|I]; auto.
Qed.
Lemma chain_in m c e a k v : chain m c e -> In (a, (k, v)) c -> exists n, hnodes m a = Some (Node n k v).
Proof.
  induction c as [|[b [k' v']] c IH]; cbn [chain]; [intros _ []|]. intros [N [Q C]] [I|I]; [|auto].
  inversion I; subst. eauto.
Qed.

(** following a chain *)
Lemma locate_found : forall c1 m t key a v c2 fuel, (length c1 < fuel)%nat ->
  rd_loc m t = Ret (hda (c1 ++ (a, (key, v)) :: c2) 0) -> chain m (c1 ++ (a, (key, v)) :: c2) 0 -> ~ In key (keys c1) ->
  locate_loop fuel m t key = Ret (lastloc t c1).
Proof.
  induction c1 as [|[b [k w]] c1 IH]; intros m t key a v c2 fuel L R C N; (destruct fuel as [|f]; [cbn in L; lia|]);
    cbn [app chain hda] in C, R; cbn [locate_loop]; rewrite R; cbn [bind]; destruct C as [Nz [Q C]].
  - destruct (Z.eqb_spec a 0); [lia|]. unfold rd_node. rewrite Q. cbn [bind nkey]. now rewrite Z.eqb_refl.
  - destruct (Z.eqb_spec b 0); [lia|]. unfold rd_node at 1. rewrite Q. cbn [bind nkey].
    cbn [keys map fst snd] in N. destruct (Z.eqb_spec k key); [exfalso; apply N; now left|]. cbn [lastloc].
    apply (IH m (NextOf b) key a v c2 f); auto.
    + cbn in L. lia.
    + unfold rd_loc, rd_node. now rewrite Q.
    + intros I. apply N. now right.
Qed.
Lemma locate_absent : forall c m t key fuel, (length c < fuel)%nat -> rd_loc m t = Ret (hda c 0) -> chain m c 0 -> ~ In key (keys c) ->
  locate_loop fuel m t key = Ret (lastloc t c).
Proof.
  induction c as [|[b [k w]] c IH]; intros m t key fuel L R C N; (destruct fuel as [|f]; [cbn in L; lia|]);
    cbn [hda] in R; cbn [locate_loop]; rewrite R; cbn [bind].
  - reflexivity.
  - destruct C as [Nz [Q C]]. destruct (Z.eqb_spec b 0); [lia|]. unfold rd_node at 1. rewrite Q. cbn [bind nkey].
    cbn [keys map fst snd] in N. destruct (Z.eqb_spec k key); [exfalso; apply N; now left|]. cbn [lastloc].
    apply (IH m (NextOf b) key f); auto.
    + cbn in L. lia.
    + unfold rd_loc, rd_node. now rewrite Q.
    + intros I. apply N. now right.
Qed.
Lemma rd_last : forall c m t e, rd_loc m t = Ret (hda c e) -> chain m c e -> rd_loc m (lastloc t c) = Ret e.
Proof.
  induction c as [|[b [k w]] c IH]; intros m t e R C; [exact R|]. cbn [lastloc]. destruct C as [Nz [Q C]].
  apply IH; auto. unfold rd_loc, rd_node. now rewrite Q.
Qed.

(** blocks are the same except for the slot [t] *)
Definition bsame (m m' : hmem) (t : loc) : Prop :=
  (forall b, (forall j, t <> Slot b j) -> hblocks m' b = hblocks m b) /\
  forall b x, hblocks m b = Some x -> exists x', hblocks m' b = Some x' /\ bcap x' = bcap x /\ bsize x' = bsize x /\ bnb x' = bnb x /\
    forall j, t <> Slot b j -> bslot x' j = bslot x j.
Lemma bsame_refl m m' t : hblocks m' = hblocks m -> bsame m m' t.
Proof. intros E. unfold bsame. rewrite E. split; [auto|]. intros b x Q. exists x. auto 6. Qed.

Lemma wr_last : forall c1 m t e v, chain m c1 e -> NoDup (addrs c1) -> rd_loc m t = Ret (hda c1 e) ->
  (forall a, t = NextOf a -> ~ In a (addrs c1)) ->
  exists m', wr_loc m (lastloc t c1) v = Ret m' /\ rd_loc m' t = Ret (hda c1 v) /\ chain m' c1 v /\
    (forall a, ~ In a (addrs c1) -> t <> NextOf a -> hnodes m' a = hnodes m a) /\
    (match t with NextOf a => forall n, hnodes m a = Some n -> hnodes m' a = Some (Node (hda c1 v) (nkey n) (nval n)) | _ => True end) /\
    bsame m m' t.
Proof.
  induction c1 as [|[b [k w]] c1 IH]; intros m t e v C ND R NT.
  - cbn [lastloc hda]. destruct t as [b i|p].
    + unfold rd_loc, rd_block in R. destruct (hblocks m b) as [x|] eqn:E; [|discriminate]. cbn [bind] in R.
      destruct ((0 <=? i) && (i <? bcap x)) eqn:Rg; [|discriminate].
      unfold wr_loc, wr_block, rd_block. rewrite E. cbn [bind]. rewrite Rg. cbn [bind].
      eexists. split; [reflexivity|]. split; [|split; [exact I|]].
      * unfold rd_loc, rd_block. cbn [hblocks]. rewrite upd_eq. cbn [bind bcap bslot]. rewrite Rg. now rewrite upd_eq.
      * split; [reflexivity|]. split; [exact I|]. split.
        -- intros b' Nt. cbn [hblocks]. apply upd_neq. intros ->. now apply (Nt i).
        -- intros b' x' Q. cbn [hblocks]. destruct (Z.eq_dec b' b) as [->|Nb].
           ++ rewrite upd_eq. eexists. split; [reflexivity|]. assert (x' = x) by congruence. subst x'. cbn.
              split; [auto|]. split; [auto|]. split; [auto|]. intros j Nj. apply upd_neq. congruence.
           ++ rewrite upd_neq by auto. exists x'. auto 6.
    + unfold rd_loc, rd_node in R. destruct (hnodes m p) as [n|] eqn:E; [|discriminate]. cbn [bind] in R.
      unfold wr_loc, wr_node, rd_node. rewrite E. cbn [bind].
      eexists. split; [reflexivity|]. split; [|split; [exact I|]].
      * unfold rd_loc, rd_node. cbn [hnodes]. now rewrite upd_eq.
      * split; [|split; [|now apply bsame_refl]].
        -- intros a _ Na. cbn [hnodes]. apply upd_neq. congruence.
        -- intros n' Q. assert (n' = n) by congruence. subst n'. cbn [hnodes]. now rewrite upd_eq.
  - cbn [lastloc hda addrs map fst] in *. destruct C as [Nz [Q C]]. inversion ND as [|? ? Nb ND']; subst.
    destruct (IH m (NextOf b) e v) as [m' [W [R' [C' [F [G BS]]]]]]; auto.
    + unfold rd_loc, rd_node. now rewrite Q.
    + intros a [= <-]. exact Nb.
    + exists m'. split; [exact W|]. split; [|split; [|split; [|split]]].
      * destruct t as [b' i|p]; unfold rd_loc in R |- *.
        -- unfold rd_block in R |- *. destruct (hblocks m b') as [x|] eqn:E; [|discriminate].
           destruct (proj2 BS b' x E) as [x' [-> [P1 [P2 [P3 P4]]]]]. cbn [bind] in R |- *. rewrite P1, P4 by discriminate. exact R.
        -- unfold rd_node in R |- *. rewrite F; [exact R| |].
           ++ intros I. apply (NT p eq_refl). now right.
           ++ intros [= E]. apply (NT p eq_refl). now left.
      * cbn [chain]. split; [auto|]. split; [|exact C']. now rewrite (G _ Q).
      * intros a Na Nt. apply F; [intros I; apply Na; now right|]. intros [= E]. apply Na. now left.
      * destruct t as [b' i|p]; [exact I|]. intros n Hn. rewrite F.
        -- rewrite Hn. f_equal. unfold rd_loc, rd_node in R. rewrite Hn in R. cbn [bind] in R. inversion R as [E].
           destruct n; cbn in *; congruence.
        -- intros I. apply (NT p eq_refl). now right.
        -- intros [= E]. apply (NT p eq_refl). now left.
      * destruct BS as [B1 B2]. split; [intros b' _; apply B1; discriminate|]. intros b' x E. destruct (B2 b' x E) as [x' [P0 [P1 [P2 [P3 P4]]]]].
        exists x'. split; [auto|]. split; [auto|]. split; [auto|]. split; [auto|]. intros j _. apply P4. discriminate.
Qed.

(** * The representation *)
Definition hashn (n : nat) (k : Z) : nat := Z.to_nat ((k mod W64) mod Z.of_nat n).
Record rep0 (m : hmem) (b : Z) (cs : list ch) (nb : Z) : Prop := {
  r_blk : exists x, hblocks m b = Some x /\ bcap x = Z.of_nat (length cs) /\ bsize x = Z.of_nat (length cs) /\ bnb x = nb /\
          forall i, (i < length cs)%nat -> bslot x (Z.of_nat i) = hda (nth i cs []) 0;
  r_len : 1 <= Z.of_nat (length cs) < W64;
  r_chain : forall i, (i < length cs)%nat -> chain m (nth i cs []) 0;
  r_addr : NoDup (addrs (concat cs))
}.
Record pure (cs : list ch) : Prop := {
  r_hash : forall i, (i < length cs)%nat -> forall k, In k (keys (nth i cs [])) -> hashn (length cs) k = i;
  r_key : NoDup (keys (concat cs))
}.
Definition setn {A} (l : list A) (i : nat) (x : A) : list A := firstn i l ++ x :: skipn (S i) l.
Lemma split_nth {A} (l : list A) i d : (i < length l)%nat -> l = firstn i l ++ nth i l d :: skipn (S i) l.
Proof.
  revert i. induction l as [|x l IH]; intros i L; [cbn in L; lia|]. destruct i as [|i]; [reflexivity|].
  cbn [firstn nth skipn app]. f_equal. apply IH. cbn in L. lia.
Qed.
Lemma setn_length {A} (l : list A) i x : (i < length l)%nat -> length (setn l i x) = length l.
Proof. intros L. unfold setn. rewrite app_length. cbn [length]. rewrite firstn_length, skipn_length. lia. Qed.
Lemma nth_setn_eq {A} (l : list A) i x d : (i < length l)%nat -> nth i (setn l i x) d = x.
Proof.
  intros L. unfold setn. rewrite app_nth2; rewrite firstn_length; [|lia]. now replace (i - Nat.min i (length l))%nat with O by lia.
Qed.
Lemma nth_setn_neq {A} (l : list A) i j x d : (i < length l)%nat -> i <> j -> nth j (setn l i x) d = nth j l d.
Proof.
  intros L N. rewrite (split_nth l i d L) at 2. unfold setn.
  destruct (Nat.lt_ge_cases j (length (firstn i l))) as [Lt|Ge].
  - now rewrite !app_nth1 by auto.
  - rewrite !app_nth2 by auto. rewrite firstn_length in *. destruct (j - Nat.min i (length l))%nat eqn:E; [lia|]. reflexivity.
Qed.
Lemma addrs_app c1 c2 : addrs (c1 ++ c2) = addrs c1 ++ addrs c2.
Proof. apply map_app. Qed.
Lemma keys_app c1 c2 : keys (c1 ++ c2) = keys c1 ++ keys c2.
Proof. apply map_app. Qed.
Lemma in_concat_nth {A} (ls : list (list A)) x : In x (concat ls) <-> exists i, (i < length ls)%nat /\ In x (nth i ls []).
Proof.
  rewrite in_concat. split.
  - intros [l [I J]]. destruct (In_nth ls l [] I) as [i [L E]]. exists i. now rewrite E.
  - intros [i [L I]]. exists (nth i ls []). split; [now apply nth_In|auto].
Qed.
Lemma in_addrs_nth cs a : In a (addrs (concat cs)) <-> exists i, (i < length cs)%nat /\ In a (addrs (nth i cs [])).
Proof.
  unfold addrs. rewrite in_map_iff. split.
  - intros [e [E I]]. apply in_concat_nth in I as [i [L I]]. exists i. split; [auto|]. apply in_map_iff. eauto.
  - intros [i [L I]]. apply in_map_iff in I as [e [E I]]. exists e. split; [auto|]. apply in_concat_nth. eauto.
Qed.
Lemma in_keys_nth cs a : In a (keys (concat cs)) <-> exists i, (i < length cs)%nat /\ In a (keys (nth i cs [])).
Proof.
  unfold keys. rewrite in_map_iff. split.
  - intros [e [E I]]. apply in_concat_nth in I as [i [L I]]. exists i. split; [auto|]. apply in_map_iff. eauto.
  - intros [i [L I]]. apply in_map_iff in I as [e [E I]]. exists e. split; [auto|]. apply in_concat_nth. eauto.
Qed.
Lemma NoDup_app_inv {A} (l1 l2 : list A) : NoDup (l1 ++ l2) -> NoDup l1 /\ NoDup l2 /\ forall x, In x l1 -> ~ In x l2.
Proof.
  induction l1 as [|x l1 IH]; cbn [app]; intros N; [split; [constructor|split; [auto|intros ? []]]|].
  inversion N as [|? ? Nx N']; subst. destruct (IH N') as [N1 [N2 D]]. split; [|split; [auto|]].
  - constructor; [|auto]. intros I. apply Nx. apply in_or_app. now left.
  - intros y [<-|I] J; [apply Nx; apply in_or_app; now right|exact (D y I J)].
Qed.
Lemma NoDup_app_intro {A} (l1 l2 : list A) : NoDup l1 -> NoDup l2 -> (forall x, In x l1 -> ~ In x l2) -> NoDup (l1 ++ l2).
Proof.
  induction l1 as [|x l1 IH]; cbn [app]; intros N1 N2 D; [auto|]. inversion N1 as [|? ? Nx N1']; subst. constructor.
  - intros I. apply in_app_or in I as [I|I]; [auto|]. apply (D x); [now left|auto].
  - apply IH; auto. intros y I. apply D. now right.
Qed.
Lemma concat_split (cs : list ch) i : (i < length cs)%nat ->
  concat cs = concat (firstn i cs) ++ nth i cs [] ++ concat (skipn (S i) cs).
Proof. intros L. rewrite (split_nth cs i [] L) at 1. now rewrite concat_app. Qed.
Lemma concat_setn (cs : list ch) i c : concat (setn cs i c) = concat (firstn i cs) ++ c ++ concat (skipn (S i) cs).
Proof. unfold setn. now rewrite concat_app. Qed.
Lemma addr_disj (cs : list ch) i j a : NoDup (addrs (concat cs)) -> (i < length cs)%nat -> (j < length cs)%nat -> i <> j ->
  In a (addrs (nth i cs [])) -> ~ In a (addrs (nth j cs [])).
Proof.
  intros N Li Lj D I J. rewrite (concat_split cs i Li) in N. unfold addrs in N. rewrite !map_app in N.
  apply NoDup_app_inv in N as [_ [N D1]]. apply NoDup_app_inv in N as [_ [_ D2]].
  assert (Hj : In (nth j cs []) (firstn i cs ++ skipn (S i) cs)).
  { destruct (Nat.lt_ge_cases j i).
    - apply in_or_app. left. rewrite <- (firstn_skipn i cs) at 1. rewrite app_nth1 by (rewrite firstn_length; lia). apply nth_In. rewrite firstn_length. lia.
    - apply in_or_app. right. rewrite <- (firstn_skipn (S i) cs) at 1. rewrite app_nth2 by (rewrite firstn_length; lia). apply nth_In.
      rewrite firstn_length, skipn_length. lia. }
  apply in_map_iff in J as [e [E J]]. subst a. apply in_app_or in Hj as [Hj|Hj].
  - apply (D1 (fst e)).
    + apply in_map. apply in_concat. eauto.
    + apply in_or_app. left. exact I.
  - apply (D2 (fst e) I). apply in_map. apply in_concat. eauto.
Qed.

(** replacing the end of a chain *)
Lemma relink m b cs nb i c1 c2 c2' :
  rep0 m b cs nb -> (i < length cs)%nat -> nth i cs [] = c1 ++ c2 ->
  chain m c2' 0 -> NoDup (addrs (concat (setn cs i (c1 ++ c2')))) ->
  exists m', wr_loc m (lastloc (Slot b (Z.of_nat i)) c1) (hda c2' 0) = Ret m' /\ rep0 m' b (setn cs i (c1 ++ c2')) nb /\
    (forall a, ~ In a (addrs c1) -> hnodes m' a = hnodes m a) /\ (forall b', b' <> b -> hblocks m' b' = hblocks m b').
Proof.
  intros R L En C2 NA. destruct (r_blk _ _ _ _ R) as [x [Hx [X1 [X2 [X3 X4]]]]].
  pose proof (r_chain _ _ _ _ R i L) as C. rewrite En in C. apply chain_app in C as [Ca Cb].
  assert (ND : NoDup (addrs c1)).
  { rewrite concat_setn in NA. rewrite !addrs_app in NA. apply NoDup_app_inv in NA as [_ [NA _]].
    rewrite <- !app_assoc in NA. apply NoDup_app_inv in NA as [NA _]. exact NA. }
  assert (Rd : rd_loc m (Slot b (Z.of_nat i)) = Ret (hda c1 (hda c2 0))).
  { unfold rd_loc, rd_block. rewrite Hx. cbn [bind]. rewrite X1.
    destruct (Z.leb_spec 0 (Z.of_nat i)), (Z.ltb_spec (Z.of_nat i) (Z.of_nat (length cs))); try lia. cbn [andb].
    rewrite X4, En, hda_app by auto. reflexivity. }
  destruct (wr_last c1 m (Slot b (Z.of_nat i)) (hda c2 0) (hda c2' 0) Ca ND Rd) as [m' [W [R' [C' [F [_ BS]]]]]]; [discriminate|].
  exists m'. split; [exact W|]. assert (Fn : forall a, ~ In a (addrs c1) -> hnodes m' a = hnodes m a) by (intros a Na; apply F; [auto|discriminate]).
  destruct (proj2 BS b x Hx) as [x' [Hx' [Y1 [Y2 [Y3 Y4]]]]].
  assert (Fb : forall b', b' <> b -> hblocks m' b' = hblocks m b') by (intros b' N; apply (proj1 BS); congruence).
  split; [|split; [exact Fn|exact Fb]]. 
  assert (Hc : forall j, (j < length cs)%nat -> chain m' (nth j (setn cs i (c1 ++ c2')) []) 0).
  { intros j Lj. destruct (Nat.eq_dec i j) as [<-|Nj].
    - rewrite nth_setn_eq by auto. apply chain_app. split; [exact C'|]. apply (chain_frame m); [auto|].
      intros a I. apply Fn. intros J. rewrite concat_setn, !addrs_app in NA. apply NoDup_app_inv in NA as [_ [NA _]].
      rewrite <- !app_assoc in NA. apply NoDup_app_inv in NA as [_ [_ D]]. apply (D a J). apply in_or_app. now left.
    - rewrite nth_setn_neq by auto. apply (chain_frame m); [exact (r_chain _ _ _ _ R j Lj)|]. intros a I. apply Fn. intros J.
      apply (addr_disj cs i j a (r_addr _ _ _ _ R) L Lj Nj); [|exact I]. rewrite En, addrs_app. apply in_or_app. now left. }
  split; try exact NA.
  - exists x'. rewrite setn_length by auto. split; [exact Hx'|]. split; [congruence|]. split; [congruence|]. split; [congruence|].
    intros j Lj. destruct (Nat.eq_dec i j) as [<-|Nj].
    + rewrite nth_setn_eq by auto. rewrite hda_app. unfold rd_loc, rd_block in R'. rewrite Hx' in R'. cbn [bind] in R'.
      destruct ((0 <=? Z.of_nat i) && (Z.of_nat i <? bcap x')); [|discriminate]. now inversion R'.
    + rewrite nth_setn_neq by auto. rewrite Y4; [auto|]. intros [= Q]. lia.
  - rewrite setn_length by auto. exact (r_len _ _ _ _ R).
  - rewrite setn_length by auto. exact Hc.
Qed.

Lemma rd_slot m b cs nb i : rep0 m b cs nb -> (i < length cs)%nat -> rd_loc m (Slot b (Z.of_nat i)) = Ret (hda (nth i cs []) 0).
Proof.
  intros R L. destruct (r_blk _ _ _ _ R) as [x [Hx [X1 [X2 [X3 X4]]]]]. unfold rd_loc, rd_block. rewrite Hx. cbn [bind]. rewrite X1.
  destruct (Z.leb_spec 0 (Z.of_nat i)), (Z.ltb_spec (Z.of_nat i) (Z.of_nat (length cs))); try lia. cbn [andb]. now rewrite X4.
Qed.
Lemma rep0_frame m m' b cs nb : rep0 m b cs nb -> (forall a, In a (addrs (concat cs)) -> hnodes m' a = hnodes m a) ->
  hblocks m' b = hblocks m b -> rep0 m' b cs nb.
Proof.
  intros R F B. split.
  - rewrite B. exact (r_blk _ _ _ _ R).
  - exact (r_len _ _ _ _ R).
  - intros i L. apply (chain_frame m); [exact (r_chain _ _ _ _ R i L)|]. intros a I. apply F. apply in_addrs_nth. eauto.
  - exact (r_addr _ _ _ _ R).
Qed.
Lemma rep0_nb m b cs nb f : rep0 m b cs nb -> exists m', set_nb m b f = Ret m' /\ rep0 m' b cs (f nb) /\ hnodes m' = hnodes m /\ (forall b', b' <> b -> hblocks m' b' = hblocks m b').
Proof.
  intros R. destruct (r_blk _ _ _ _ R) as [x [Hx [X1 [X2 [X3 X4]]]]]. unfold set_nb, wr_block, rd_block. rewrite Hx. cbn [bind].
  eexists. split; [reflexivity|]. split; [|split; [reflexivity|]].
  - split.
    + cbn [hblocks]. rewrite upd_eq. eexists. split; [reflexivity|]. cbn. rewrite X3. auto.
    + exact (r_len _ _ _ _ R).
    + intros i L. apply (chain_frame m); [exact (r_chain _ _ _ _ R i L)|]. reflexivity.
    + exact (r_addr _ _ _ _ R).
  - intros b' N. cbn [hblocks]. now apply upd_neq.
Qed.
Lemma hashn_lt cs k : 1 <= Z.of_nat (@length ch cs) < W64 -> (hashn (length cs) k < length cs)%nat.
Proof. intros L. unfold hashn. pose proof (Z.mod_pos_bound (k mod W64) (Z.of_nat (length cs)) ltac:(lia)). lia. Qed.
Lemma Hash_Function_ok n k : 1 <= Z.of_nat n < W64 -> Hash_Function k (Z.of_nat n) = Ret (Z.of_nat (hashn n k)).
Proof.
  intros L. unfold Hash_Function. destruct (Z.eqb_spec (Z.of_nat n) 0); [lia|]. rewrite (Z.mod_small (Z.of_nat n) W64) by lia.
  unfold hashn. pose proof (Z.mod_pos_bound (k mod W64) (Z.of_nat n) ltac:(lia)). now rewrite Z2Nat.id by lia.
Qed.
Lemma chain_le (cs : list ch) i : (i < length cs)%nat -> (length (nth i cs []) <= length (concat cs))%nat.
Proof. intros L. rewrite (concat_split cs i L), !app_length. lia. Qed.
Lemma in_keys_split k c : In k (keys c) -> exists c1 a v c2, c = c1 ++ (a, (k, v)) :: c2 /\ ~ In k (keys c1).
Proof.
  induction c as [|[a [k' v]] c IH]; cbn [keys map fst snd]; [intros []|]. intros I. destruct (Z.eq_dec k' k) as [->|N].
  - exists [], a, v, c. split; [reflexivity|intros []].
  - destruct I as [I|I]; [contradiction|]. destruct (IH I) as [c1 [b [w [c2 [-> Nk]]]]].
    exists ((a, (k', v)) :: c1), b, w, c2. split; [reflexivity|]. cbn [keys map fst snd]. intros [J|J]; auto.
Qed.
Definition located (m : hmem) (b : Z) (cs : list ch) (key : Z) (t : loc) : Prop :=
  let i := hashn (length cs) key in
  (exists c1 a v c2, nth i cs [] = c1 ++ (a, (key, v)) :: c2 /\ t = lastloc (Slot b (Z.of_nat i)) c1 /\ rd_loc m t = Ret a /\ a <> 0 /\    hnodes m a = Some (Node (hda c2 0) key v)) \/
  (~ In key (keys (concat cs)) /\ t = lastloc (Slot b (Z.of_nat i)) (nth i cs []) /\ rd_loc m t = Ret 0).
Lemma Hash_Locate_ok m b cs nb key fuel : rep0 m b cs nb -> pure cs -> (length (concat cs) < fuel)%nat ->
  exists t, Hash_Locate fuel m b (Z.of_nat (length cs)) key = Ret t /\ located m b cs key t.
Proof.
  intros R P L. unfold Hash_Locate. rewrite Hash_Function_ok by exact (r_len _ _ _ _ R). cbn [bind]. unfold located. set (i := hashn (length cs) key).
  assert (Li : (i < length cs)%nat) by (apply hashn_lt; exact (r_len _ _ _ _ R)).
  pose proof (rd_slot _ _ _ _ _ R Li) as Rd. pose proof (r_chain _ _ _ _ R i Li) as C. pose proof (chain_le cs i Li) as Lc.
  destruct (in_dec Z.eq_dec key (keys (nth i cs []))) as [I|N].
  - destruct (in_keys_split _ _ I) as [c1 [a [v [c2 [E Nk]]]]]. rewrite E in *. exists (lastloc (Slot b (Z.of_nat i)) c1). split.
    + apply (locate_found c1 m _ key a v c2); auto. rewrite app_length in Lc. cbn in Lc. lia.
    + left. exists c1, a, v, c2. split; [auto|]. split; [auto|]. rewrite hda_app in Rd. apply chain_app in C as [C1 C2].
      destruct C2 as [Nz [Q _]]. split; [exact (rd_last c1 m _ a Rd C1)|]. auto.
  - exists (lastloc (Slot b (Z.of_nat i)) (nth i cs [])). split; [apply locate_absent; auto; lia|]. right. split; [|split; [auto|]].
    + intros I. apply in_keys_nth in I as [j [Lj I]]. pose proof (r_hash _ P j Lj key I) as Q. fold i in Q. subst j. contradiction.
    + exact (rd_last _ m _ 0 Rd C).
Qed.

(** * The table as a finite map *)
Record tbl (m : hmem) (b : Z) (f : map_) (cs : list ch) : Prop := {
  t_rep : rep0 m b cs (Z.of_nat (length (concat cs)));
  t_pure : pure cs;
  t_map : forall k v, f k = Some v <-> exists a, In (a, (k, v)) (concat cs)
}.
Lemma t_none m b f cs k : tbl m b f cs -> (f k = None <-> ~ In k (keys (concat cs))).
Proof.
  intros T. split.
  - intros Q I. unfold keys in I. apply in_map_iff in I as [[a [k' v]] [E I]]. cbn in E. subst k'.
    assert (f k = Some v) by (apply (t_map _ _ _ _ T); eauto). congruence.
  - intros N. destruct (f k) as [v|] eqn:Q; [|auto]. apply (t_map _ _ _ _ T) in Q as [a I]. exfalso. apply N.
    unfold keys. apply in_map_iff. now exists (a, (k, v)).
Qed.
Definition rest (cs : list ch) (i : nat) (c1 : ch) : ch := concat (firstn i cs) ++ c1 ++ concat (skipn (S i) cs).
Lemma perm_aux (P c1 c2 Q : ch) : Permutation (P ++ c1 ++ c2 ++ Q) (c2 ++ P ++ c1 ++ Q).
Proof. rewrite (app_assoc P c1 (c2 ++ Q)), (app_assoc P c1 Q). apply Permutation_app_swap_app. Qed.
Lemma perm_old (cs : list ch) i c1 c2 : (i < length cs)%nat -> nth i cs [] = c1 ++ c2 -> Permutation (concat cs) (c2 ++ rest cs i c1).
Proof.
  intros L E. rewrite (concat_split cs i L), E. unfold rest. rewrite <- app_assoc.
  apply perm_aux.
Qed.
Lemma perm_new (cs : list ch) i c1 c2 : Permutation (concat (setn cs i (c1 ++ c2))) (c2 ++ rest cs i c1).
Proof.
  rewrite concat_setn. unfold rest. rewrite <- app_assoc.
  apply perm_aux.
Qed.
Lemma perm_addrs c1 c2 : Permutation c1 c2 -> NoDup (addrs c1) -> NoDup (addrs c2).
Proof. intros P N. apply (Permutation_NoDup (Permutation_map fst P) N). Qed.
Lemma perm_keys c1 c2 : Permutation c1 c2 -> NoDup (keys c1) -> NoDup (keys c2).
Proof. intros P N. apply (Permutation_NoDup (Permutation_map _ P) N). Qed.
Lemma pure_setn cs i c1 c2 c2' : pure cs -> (i < length cs)%nat -> nth i cs [] = c1 ++ c2 ->
  NoDup (keys (concat (setn cs i (c1 ++ c2')))) -> (forall k, In k (keys c2') -> hashn (length cs) k = i) -> pure (setn cs i (c1 ++ c2')).
Proof.
  intros P L En NK NH. split; [|exact NK]. rewrite setn_length by auto. intros j Lj k I. destruct (Nat.eq_dec i j) as [<-|Nj].
  - rewrite nth_setn_eq in I by auto. rewrite keys_app in I. apply in_app_or in I as [I|I]; [|auto].
    apply (r_hash _ P i L). rewrite En, keys_app. apply in_or_app. now left.
  - rewrite nth_setn_neq in I by auto. exact (r_hash _ P j Lj k I).
Qed.
Lemma alloc_addr m b f cs a : tbl m b f cs -> In a (addrs (concat cs)) -> exists n, hnodes m a = Some n.
Proof.
  intros T I. apply in_addrs_nth in I as [i [L I]]. unfold addrs in I. apply in_map_iff in I as [[x [k v]] [E I]]. cbn in E. subst x.
  destruct (chain_in _ _ _ _ _ _ (r_chain _ _ _ _ (t_rep _ _ _ _ T) i L) I) as [n Q]. eauto.
Qed.
(** memory outside the table *)
Definition outside (m m' : hmem) (b : Z) (d : Z -> Prop) : Prop :=
  (forall x, ~ d x -> hnodes m' x = hnodes m x) /\ (forall b', b' <> b -> hblocks m' b' = hblocks m b').
Lemma rep0_wr_node m b cs nb i c1 a k v c2 k' v' : rep0 m b cs nb -> (i < length cs)%nat ->
  nth i cs [] = c1 ++ (a, (k, v)) :: c2 ->
  exists m', wr_node m a (Node (hda c2 0) k' v') = Ret m' /\ rep0 m' b (setn cs i (c1 ++ (a, (k', v')) :: c2)) nb /\
    hblocks m' = hblocks m /\ hnodes m' = upd (hnodes m) a (Some (Node (hda c2 0) k' v')).
Proof.
  intros R L En. pose proof (r_chain _ _ _ _ R i L) as C. rewrite En in C. apply chain_app in C as [C1 C2]. destruct C2 as [Nz [Q C2]].
  unfold wr_node, rd_node. rewrite Q. cbn [bind]. eexists. split; [reflexivity|]. split; [|split; reflexivity].
  assert (PA : Permutation (addrs (concat cs)) (addrs (concat (setn cs i (c1 ++ (a, (k', v')) :: c2))))).
  { rewrite (Permutation_map fst (perm_old cs i c1 _ L En)). symmetry. unfold addrs. rewrite (Permutation_map fst (perm_new cs i c1 _)). reflexivity. }
  assert (Nin : forall j, (j < length cs)%nat -> i <> j -> ~ In a (addrs (nth j cs []))).
  { intros j Lj D. apply (addr_disj cs i j a (r_addr _ _ _ _ R) L Lj D). rewrite En, addrs_app. apply in_or_app. right. now left. }
  assert (ND : NoDup (addrs (c1 ++ (a, (k, v)) :: c2))).
  { pose proof (r_addr _ _ _ _ R) as N. rewrite (concat_split cs i L), En, !addrs_app in N. apply NoDup_app_inv in N as [_ [N _]].
    apply NoDup_app_inv in N as [N _]. now rewrite addrs_app. }
  rewrite addrs_app in ND. apply NoDup_app_inv in ND as [_ [ND Dj]]. inversion ND as [|? ? Na _]; subst.
  destruct (r_blk _ _ _ _ R) as [x [Hx [X1 [X2 [X3 X4]]]]].
  split.
  - exists x. rewrite setn_length by auto. split; [exact Hx|]. split; [auto|]. split; [auto|]. split; [auto|]. intros j Lj. rewrite X4 by auto.
    destruct (Nat.eq_dec i j) as [<-|Nj]; [|now rewrite nth_setn_neq by auto].
    rewrite nth_setn_eq by auto. rewrite En, !hda_app. reflexivity.
  - rewrite setn_length by auto. exact (r_len _ _ _ _ R).
  - rewrite setn_length by auto. intros j Lj. destruct (Nat.eq_dec i j) as [<-|Nj].
    + rewrite nth_setn_eq by auto. apply chain_app. split; [|split; [auto|split]].
      * apply (chain_frame m); [exact C1|]. intros y I. cbn [hnodes]. apply upd_neq. intros ->. apply (Dj a I). now left.
      * cbn [hnodes]. apply upd_eq.
      * apply (chain_frame m); [exact C2|]. intros y I. cbn [hnodes]. apply upd_neq. intros ->. contradiction.
    + rewrite nth_setn_neq by auto. apply (chain_frame m); [exact (r_chain _ _ _ _ R j Lj)|]. intros y I. cbn [hnodes]. apply upd_neq.
      intros ->. exact (Nin j Lj Nj I).
  - apply (Permutation_NoDup PA). exact (r_addr _ _ _ _ R).
Qed.
Lemma tbl_size_rd m b f cs : tbl m b f cs -> exists x, rd_block m b = Ret x /\ bsize x = Z.of_nat (length cs) /\ bnb x = Z.of_nat (length (concat cs)).
Proof. intros T. destruct (r_blk _ _ _ _ (t_rep _ _ _ _ T)) as [x [Hx [X1 [X2 [X3 X4]]]]]. exists x. unfold rd_block. now rewrite Hx. Qed.

Lemma Insert_ok m b f cs k v r a fuel : tbl m b f cs -> (length (concat cs) < fuel)%nat -> hnodes m a = None -> a <> 0 ->
  exists m' p cs', Insert fuel m b k v r a = Ret (m', p) /\ tbl m' b (m_insert f k v r) cs' /\ length cs' = length cs /\
    (exists n w, hnodes m' p = Some (Node n k w) /\ m_insert f k v r k = Some w) /\
    outside m m' b (fun x => In x (addrs (concat cs)) \/ f k = None /\ x = a) /\
    (forall x, In x (addrs (concat cs')) <-> In x (addrs (concat cs)) \/ f k = None /\ x = a) /\
    ((exists c1 p w w' c2, nth (hashn (length cs) k) cs [] = c1 ++ (p, (k, w)) :: c2 /\
        cs' = setn cs (hashn (length cs) k) (c1 ++ (p, (k, w')) :: c2)) \/
     (f k = None /\ cs' = setn cs (hashn (length cs) k) (nth (hashn (length cs) k) cs [] ++ [(a, (k, v))]))).
Proof.
  intros T L Fr Nz. destruct (tbl_size_rd _ _ _ _ T) as [x [Rx [Sx _]]]. unfold Insert. rewrite Rx. cbn [bind]. rewrite Sx.
  destruct (Hash_Locate_ok m b cs _ k fuel (t_rep _ _ _ _ T) (t_pure _ _ _ _ T) L) as [t [-> Lt]]. cbn [bind].
  unfold located in Lt. set (i := hashn (length cs) k) in *.
  assert (Li : (i < length cs)%nat) by (apply hashn_lt; exact (r_len _ _ _ _ (t_rep _ _ _ _ T))).
  destruct Lt as [[c1 [p [w [c2 [En [Et [Rt [Np Q]]]]]]]]|[Nk [Et Rt]]].
  - rewrite Rt. cbn [bind]. destruct (Z.eqb_spec p 0); [lia|].
    assert (Fk : f k = Some w).
    { apply (t_map _ _ _ _ T). exists p. apply in_concat_nth. exists i. split; [auto|]. rewrite En. apply in_or_app. right. now left. }
    unfold m_insert. rewrite Fk. destruct r; cbn [negb].
    + unfold rd_node at 1. rewrite Q. cbn [bind nnext].
      destruct (rep0_wr_node _ _ _ _ _ _ _ _ _ _ k v (t_rep _ _ _ _ T) Li En) as [m' [-> [R' [B' N']]]]. cbn [bind].
      assert (Po := perm_old cs i c1 _ Li En). pose proof (perm_new cs i c1 ((p, (k, v)) :: c2)) as Pn.
      exists m', p, (setn cs i (c1 ++ (p, (k, v)) :: c2)). split; [reflexivity|]. split; [split|split; [now apply setn_length|split; [|split; [|split]]]].
      * assert (length (concat (setn cs i (c1 ++ (p, (k, v)) :: c2))) = length (concat cs)) as ->; [|exact R'].
        rewrite (Permutation_length Po), (Permutation_length Pn). reflexivity.
      * apply (pure_setn cs i c1 ((p, (k, w)) :: c2)); auto.
        -- exact (t_pure _ _ _ _ T).
        -- apply (perm_keys _ _ (Permutation_sym Pn)). exact (perm_keys _ _ Po (r_key _ (t_pure _ _ _ _ T))).
        -- intros k' I. cbn [keys map fst snd] in I. apply (r_hash _ (t_pure _ _ _ _ T) i Li). rewrite En, keys_app. apply in_or_app. right. exact I.
      * intros k' v'. unfold m_set. pose proof (perm_keys _ _ Po (r_key _ (t_pure _ _ _ _ T))) as NK. cbn [keys map fst snd app] in NK.
        inversion NK as [|? ? Nk _]; subst.
        destruct (Z.eqb_spec k' k) as [->|Nkk].
        -- split.
           ++ intros [= <-]. exists p. apply (Permutation_in _ (Permutation_sym Pn)). now left.
           ++ intros [a' I]. apply (Permutation_in _ Pn) in I. destruct I as [I|I]; [congruence|]. exfalso. apply Nk.
              change (In k (keys (c2 ++ rest cs i c1))). unfold keys. apply in_map_iff. now exists (a', (k, v')).
        -- rewrite (t_map _ _ _ _ T). split; intros [a' I]; exists a'.
           ++ apply (Permutation_in _ Po) in I. apply (Permutation_in _ (Permutation_sym Pn)). destruct I as [I|I]; [congruence|now right].
           ++ apply (Permutation_in _ Pn) in I. apply (Permutation_in _ (Permutation_sym Po)). destruct I as [I|I]; [congruence|now right].
      * exists (hda c2 0), v. split; [rewrite N'; apply upd_eq|]. unfold m_set. now rewrite Z.eqb_refl.
      * split; [|intros; now rewrite B']. intros y Ny. rewrite N'. apply upd_neq. intros ->. apply Ny. left.
        apply in_addrs_nth. exists i. split; [auto|]. rewrite En, addrs_app. apply in_or_app. right. now left.
      * intros y. split.
        -- intros I. left. apply (Permutation_in _ (Permutation_map fst (Permutation_sym Po))). exact (Permutation_in _ (Permutation_map fst Pn) I).
        -- intros [I|[? _]]; [|congruence]. apply (Permutation_in _ (Permutation_map fst (Permutation_sym Pn))). exact (Permutation_in _ (Permutation_map fst Po) I).
      * left. exists c1, p, w, v, c2. auto.
    + exists m, p, cs. split; [reflexivity|]. split; [exact T|]. split; [reflexivity|]. split; [exists (hda c2 0), w; auto|].
      split; [split; reflexivity|]. split; [|left].
      * intros y. split; [auto|]. intros [I|[? _]]; [auto|congruence].
      * exists c1, p, w, w, c2. split; [auto|]. rewrite <- En. unfold setn. apply (split_nth cs i [] Li).
  - rewrite Rt. cbn [bind]. rewrite Z.eqb_refl.
    assert (Fk : f k = None) by (apply (t_none _ _ _ _ _ T); auto).
    assert (Na : ~ In a (addrs (concat cs))) by (intros I; destruct (alloc_addr _ _ _ _ _ T I); congruence).
    set (m1 := Hmem (upd (hnodes m) a (Some (Node 0 0 0))) (hblocks m)).
    assert (R1 : rep0 m1 b cs (Z.of_nat (length (concat cs)))).
    { apply (rep0_frame m); [exact (t_rep _ _ _ _ T)| |reflexivity]. intros y I. apply upd_neq. congruence. }
    destruct (rep0_nb m1 b cs _ (fun n => n + 1) R1) as [m2 [-> [R2 [N2 B2]]]]. cbn [bind].
    assert (En : nth i cs [] = nth i cs [] ++ []) by now rewrite app_nil_r.
    pose proof (perm_new cs i (nth i cs []) [(a, (0, 0))]) as Pn0. pose proof (perm_old cs i _ _ Li En) as Po. cbn [app] in Po.
    destruct (relink m2 b cs _ i (nth i cs []) [] [(a, (0, 0))] R2 Li En) as [m3 [W3 [R3 [N3 B3]]]].
    { cbn [chain hda]. split; [auto|]. split; [|exact I]. rewrite N2. unfold m1. cbn [hnodes]. apply upd_eq. }
    { apply (perm_addrs _ _ (Permutation_sym Pn0)). cbn [app addrs map fst]. constructor.
      - intros I. apply Na. exact (Permutation_in _ (Permutation_map fst (Permutation_sym Po)) I).
      - exact (perm_addrs _ _ Po (r_addr _ _ _ _ R1)). }
    rewrite Et. cbn [hda] in W3. rewrite W3. cbn [bind].
    set (cs3 := setn cs i (nth i cs [] ++ [(a, (0, 0))])) in *.
    assert (L3 : (i < length cs3)%nat) by (unfold cs3; rewrite setn_length; auto).
    assert (E3 : nth i cs3 [] = nth i cs [] ++ (a, (0, 0)) :: []) by (unfold cs3; now rewrite nth_setn_eq by auto).
    assert (Q3 : hnodes m3 a = Some (Node 0 0 0)).
    { pose proof (r_chain _ _ _ _ R3 i L3) as C. rewrite E3 in C. apply chain_app in C as [_ [_ [Q _]]]. exact Q. }
    unfold rd_node at 1. rewrite Q3. cbn [bind nnext].
    destruct (rep0_wr_node _ _ _ _ _ _ _ _ _ _ k v R3 L3 E3) as [m4 [W4 [R4 [B4 N4]]]]. cbn [hda] in W4. rewrite W4. cbn [bind].
    assert (E4 : setn cs3 i (nth i cs [] ++ [(a, (k, v))]) = setn cs i (nth i cs [] ++ [(a, (k, v))])).
    { unfold cs3, setn at 1 2. rewrite firstn_app, firstn_length, firstn_firstn. replace (i - Nat.min i (length cs))%nat with O by lia.
      cbn [firstn]. rewrite app_nil_r, Nat.min_id. rewrite skipn_app, firstn_length. replace (S i - Nat.min i (length cs))%nat with 1%nat by lia.
      rewrite (skipn_all2 (firstn i cs)) by (rewrite firstn_length; lia). reflexivity. }
    rewrite E4 in R4. pose proof (perm_new cs i (nth i cs []) [(a, (k, v))]) as Pn.
    exists m4, a, (setn cs i (nth i cs [] ++ [(a, (k, v))])). split; [reflexivity|]. split; [split|split; [now apply setn_length|split; [|split; [|split]]]].
    + assert (Z.of_nat (length (concat (setn cs i (nth i cs [] ++ [(a, (k, v))])))) = Z.of_nat (length (concat cs)) + 1) as ->; [|exact R4].
      rewrite (Permutation_length Po), (Permutation_length Pn). cbn [app length]. lia.
    + apply (pure_setn cs i (nth i cs []) []); auto.
      * exact (t_pure _ _ _ _ T).
      * apply (perm_keys _ _ (Permutation_sym Pn)). cbn [app keys map fst snd]. constructor.
        -- intros I. apply Nk. exact (Permutation_in _ (Permutation_map _ (Permutation_sym Po)) I).
        -- exact (perm_keys _ _ Po (r_key _ (t_pure _ _ _ _ T))).
      * intros k' [<-|[]]. reflexivity.
    + intros k' v'. unfold m_insert. rewrite Fk. unfold m_set. destruct (Z.eqb_spec k' k) as [->|Nkk].
      * split.
        -- intros [= <-]. exists a. apply (Permutation_in _ (Permutation_sym Pn)). now left.
        -- intros [a' I]. apply (Permutation_in _ Pn) in I. destruct I as [I|I]; [congruence|]. exfalso. apply Nk.
           apply (Permutation_in _ (Permutation_sym Po)) in I. unfold keys. apply in_map_iff. now exists (a', (k, v')).
      * rewrite (t_map _ _ _ _ T). split; intros [a' I]; exists a'.
        -- apply (Permutation_in _ Po) in I. apply (Permutation_in _ (Permutation_sym Pn)). now right.
        -- apply (Permutation_in _ Pn) in I. apply (Permutation_in _ (Permutation_sym Po)). destruct I as [I|I]; [congruence|auto].
    + exists 0, v. split; [rewrite N4; apply upd_eq|]. unfold m_insert. rewrite Fk. unfold m_set. now rewrite Z.eqb_refl.
    + split.
      * intros y Ny. rewrite N4, upd_neq by (intros ->; apply Ny; now right). rewrite N3.
        -- rewrite N2. unfold m1. cbn [hnodes]. apply upd_neq. intros ->. apply Ny. now right.
        -- intros I. apply Ny. left. apply in_addrs_nth. eauto.
      * intros b' Nb. rewrite B4, B3, B2 by auto. reflexivity.
    + intros y. split.
      * intros I. apply (Permutation_in _ (Permutation_map fst Pn)) in I. destruct I as [<-|I]; [now right|]. left.
        exact (Permutation_in _ (Permutation_map fst (Permutation_sym Po)) I).
      * intros [I|[_ ->]]; apply (Permutation_in _ (Permutation_map fst (Permutation_sym Pn))); [right|now left].
        exact (Permutation_in _ (Permutation_map fst Po) I).
    + right. auto.
Qed.
