(** The set operations on ranges (fd_range.c:794-1308). *)
Require Import ZArith List Bool Lia Sorted.
Require Import Verif.Heap_Model Verif.FdRange_Model Verif.FdRange_Spec Verif.FdRange_Proofs.
Import ListNotations.
Open Scope Z_scope.

Lemma split_at : forall (v : list Z) k, (k < length v)%nat -> v = firstn k v ++ nth k v 0 :: skipn (S k) v.
Proof. induction v as [|a v IH]; intros k Hk; [cbn in Hk; lia|]. destruct k; [reflexivity|]. cbn [firstn nth app]. change (skipn (S (S k)) (a :: v)) with (skipn (S k) v). f_equal. apply IH. cbn in Hk. lia. Qed.
Lemma split_last : forall (v : list Z) k, length v = S k -> v = firstn k v ++ [nth k v 0].
Proof. induction v as [|a v IH]; intros k Hk; [cbn in Hk; lia|]. destruct k; [destruct v; [reflexivity|cbn in Hk; lia]|]. cbn [firstn nth app]. f_equal. apply IH. cbn in Hk. lia. Qed.
Section R.
Variable sz : nat.
Hypothesis small : 64 * Z.of_nat sz <= 2 ^ 28.
Notation vmax := (vmax sz).
Ltac ints := unfold is_int, INT_MIN, INT_MAX, FdRange_Model.vmax in *; try lia.
Ltac nonempty L := match goal with |- context[Is_Empty ?r] => replace (Is_Empty r) with false by (symmetry; apply Z.ltb_ge; exact L) end.

Theorem Test_Value_ok r n : rok sz r -> exists b, Range_Test_Value r n = Ret b /\ (b = true <-> rin r n).
Proof.
  intros R. unfold Range_Test_Value, rin. destruct (Z.ltb_spec n (rmin r)); [exists false; split; [reflexivity|split; [discriminate|lia]]|]. destruct (Z.ltb_spec (rmax r) n); [exists false; split; [reflexivity|split; [discriminate|lia]]|]. cbn [orb].
  destruct (vec r) as [v|] eqn:E; [|exists true; split; [reflexivity|split; [intros _; split; [lia|exact I]|reflexivity]]].
  pose proof R as [_ [_ R3]]. rewrite E in R3. destruct R3 as [V R3]. destruct (R3 ltac:(lia)) as [A [B C]]. pose proof (rok_bounds _ r v R E ltac:(lia)) as Bo.
  destruct (Z.eqb_spec n (rmin r)) as [->|N1]; [exists true; split; [reflexivity|]; split; [intros _; split; [lia|exact A]|reflexivity]|].
  destruct (Z.eqb_spec n (rmax r)) as [->|N2]; [exists true; split; [reflexivity|]; split; [intros _; split; [lia|exact B]|reflexivity]|].
  cbn [orb]. rewrite (Test_ok sz small v n V) by lia. eexists. split; [reflexivity|]. split; [intros ->; split; [lia|reflexivity]|tauto].
Qed.

Lemma test_loop_ok v : vok sz v -> forall k i, 0 <= i -> i + Z.of_nat k <= vmax + 1 ->
  exists b, test_loop k v i = Ret b /\ (b = true <-> ~ exists n, i <= n < i + Z.of_nat k /\ vin v n = true).
Proof.
  intros V. induction k as [|k IH]; intros i Hi Hk; cbn [test_loop].
  - exists true. split; [reflexivity|]. split; [|reflexivity]. intros _ [n [X _]]. lia.
  - rewrite (Test_ok sz small v i V) by lia. cbn [bind]. destruct (vin v i) eqn:Q.
    + exists false. split; [reflexivity|]. split; [discriminate|]. intros X. exfalso. apply X. exists i. split; [lia|exact Q].
    + destruct (IH (i + 1) ltac:(lia) ltac:(lia)) as [b [E1 E2]]. exists b. split; [exact E1|]. rewrite E2. split; intros X [n [N1 N2]]; apply X; exists n; (split; [|exact N2]); [|lia]. destruct (Z.eq_dec n i) as [->|]; [congruence|lia].
Qed.
Theorem Test_Null_Inter_ok r r1 : rok sz r -> rok sz r1 -> rmin r <= rmax r -> rmin r1 <= rmax r1 ->
  exists b, Range_Test_Null_Inter r r1 = Ret b /\ (b = true <-> ~ exists n, rin r n /\ rin r1 n).
Proof.
  intros R R1 L L1. unfold Range_Test_Null_Inter.
  assert (Mi : forall r, rok sz r -> rmin r <= rmax r -> rin r (rmin r) /\ rin r (rmax r)).
  { clear. intros r [_ [_ R]] L. unfold rin. destruct (vec r) as [v|]; [|split; split; auto; lia]. destruct R as [_ R]. destruct (R L) as [A [B _]]. split; (split; [lia|assumption]). }
  destruct (Mi r R L) as [Ma Mb]. destruct (Mi r1 R1 L1) as [Mc Md].
  destruct (Z.ltb_spec (rmax r1) (rmin r)); cbn [orb]; [exists true; split; [reflexivity|]; split; [|reflexivity]; intros _ [n [[X _] [Y _]]]; lia|].
  destruct (Z.ltb_spec (rmax r) (rmin r1)); cbn [orb]; [exists true; split; [reflexivity|]; split; [|reflexivity]; intros _ [n [[X _] [Y _]]]; lia|].
  assert (No : forall n, rin r n -> rin r1 n -> exists b, Ret false = Ret b /\ (b = true <-> ~ exists n, rin r n /\ rin r1 n)).
  { intros n A B. exists false. split; [reflexivity|]. split; [discriminate|]. intros X. exfalso. apply X. exists n. auto. }
  destruct (Z.eqb_spec (rmin r) (rmin r1)) as [Q1|Q1]; cbn [orb]; [apply (No (rmin r)); [auto|now rewrite Q1]|].
  destruct (Z.eqb_spec (rmin r) (rmax r1)) as [Q2|Q2]; cbn [orb]; [apply (No (rmin r)); [auto|now rewrite Q2]|].
  destruct (Z.eqb_spec (rmax r) (rmin r1)) as [Q3|Q3]; cbn [orb]; [apply (No (rmax r)); [auto|now rewrite Q3]|].
  destruct (Z.eqb_spec (rmax r) (rmax r1)) as [Q4|Q4]; cbn [orb]; [apply (No (rmax r)); [auto|now rewrite Q4]|].
  assert (Ov : forall r r1, vec r = None -> rin r1 (rmin r1) -> rin r1 (rmax r1) -> rmin r <= rmax r1 -> rmin r1 <= rmax r ->
    ((rmin r1 <=? rmin r) && (rmax r1 <=? rmax r)) || ((rmin r <=? rmin r1) && (rmax r <=? rmax r1)) = true -> exists n, rin r n /\ rin r1 n).
  { clear. intros r r1 E A B C D F. apply orb_prop in F. destruct F as [F|F]; apply andb_prop in F; destruct F as [F1 F2]; apply Z.leb_le in F1, F2.
    - exists (rmax r1). split; [|exact B]. unfold rin. rewrite E. lia.
    - exists (rmin r1). split; [|exact A]. unfold rin. rewrite E. lia. }
  assert (In' : forall r r1 v1, rok sz r1 -> vec r = None -> vec r1 = Some v1 -> rin r1 (rmin r1) -> rmin r <= rmax r -> rmin r1 <= rmax r1 -> rmin r <= rmax r1 -> rmin r1 <= rmax r ->
    ((rmin r1 <=? rmin r) && (rmax r1 <=? rmax r)) || ((rmin r <=? rmin r1) && (rmax r <=? rmax r1)) = false ->
    exists b, (if rmin r <=? rmin r1 then Ret false else test_loop (Z.to_nat (rmax r - rmin r + 1)) v1 (rmin r)) = Ret b /\ (b = true <-> ~ exists n, rin r n /\ rin r1 n)).
  { clear -small. intros r r1 v1 R1 E E1 Mc L L1 H H0 F. apply orb_false_elim in F. destruct F as [F1 F2]. destruct (Z.leb_spec (rmin r) (rmin r1)) as [G|G].
    - exists false. split; [reflexivity|]. split; [discriminate|]. intros X. exfalso. apply X. exists (rmin r1). split; [unfold rin; rewrite E; lia|exact Mc].
    - apply andb_false_iff in F1. rewrite !Z.leb_gt in F1. pose proof (rok_bounds _ r1 v1 R1 E1 L1) as Bo. destruct (test_loop_ok v1 (rok_vec _ _ _ R1 E1) (Z.to_nat (rmax r - rmin r + 1)) (rmin r)) as [b [T1 T2]]; [lia|lia|].
      exists b. split; [exact T1|]. rewrite T2. split; intros X [n Hn]; apply X; exists n.
      + destruct Hn as [H1 H2]. unfold rin in H1. split; [lia|]. now apply (rok_rin _ r1 v1 n R1 E1 L1).
      + destruct Hn as [H1 H2]. split; [unfold rin; rewrite E; lia|]. now apply (rok_rin _ r1 v1 n R1 E1 L1). }
  destruct (vec r) as [v|] eqn:E, (vec r1) as [v1|] eqn:E1.
  - pose proof (rok_vec _ _ _ R E) as V. pose proof (rok_vec _ _ _ R1 E1) as V1. eexists. split; [reflexivity|]. unfold Vector_Test_Null_Inter. destruct (Inter_v sz v1 v V1 V) as [[X1 X1'] X2]. unfold Vector_Inter in *. split.
    + intros Q [n [I1 I2]]. apply (rok_rin _ r v n R E L) in I1. apply (rok_rin _ r1 v1 n R1 E1 L1) in I2. specialize (X2 n). rewrite I1, I2 in X2. cbn in X2. unfold vin in X2. destruct (Z.leb_spec 0 n); [|discriminate]. cbn [andb] in X2.
      rewrite forallb_forall in Q. assert (Z.testbit 0 (n mod 64) = true); [|rewrite Z.bits_0 in *; discriminate]. rewrite <- X2. f_equal. symmetry. destruct (nth_in_or_default (Z.to_nat (n / 64)) (zip Z.land v1 v) 0) as [Hin|Hd]; [|exact Hd]. apply Z.eqb_eq. now apply Q.
    + intros Q. apply forallb_forall. intros w Hw. apply Z.eqb_eq. destruct (Z.eq_dec w 0) as [|Nw]; [assumption|]. exfalso. apply Q. rewrite Forall_forall in X1'. destruct (nz_bit w (X1' w Hw) Nw) as [j [Hj Tj]]. apply (In_nth _ _ 0) in Hw. destruct Hw as [k [Hk <-]].
      assert (T : vin (zip Z.land v1 v) (64 * Z.of_nat k + j) = true).
      { unfold vin. replace ((64 * Z.of_nat k + j) / 64) with (Z.of_nat k) by (apply (Z.div_unique_pos _ _ _ j); lia). replace ((64 * Z.of_nat k + j) mod 64) with j by (apply (Z.mod_unique_pos _ _ (Z.of_nat k)); lia). rewrite Nat2Z.id, Tj. destruct (Z.leb_spec 0 (64 * Z.of_nat k + j)); [reflexivity|lia]. }
      rewrite X2 in T. apply andb_prop in T. destruct T as [T1 T2]. exists (64 * Z.of_nat k + j). split; [now apply (rok_rin _ r v _ R E L)|now apply (rok_rin _ r1 v1 _ R1 E1 L1)].
  - destruct (((rmin r1 <=? rmin r) && (rmax r1 <=? rmax r)) || ((rmin r <=? rmin r1) && (rmax r <=? rmax r1))) eqn:F.
    + destruct (Ov r1 r E1 Ma Mb ltac:(lia) ltac:(lia)) as [n [N1 N2]]; [now rewrite orb_comm|]. exact (No n N2 N1).
    + destruct (In' r1 r v R E1 E Ma L1 L ltac:(lia) ltac:(lia)) as [b [B1 B2]]; [now rewrite orb_comm|]. exists b. split; [exact B1|]. rewrite B2. split; intros X [n [N1 N2]]; apply X; exists n; auto.
  - destruct (((rmin r1 <=? rmin r) && (rmax r1 <=? rmax r)) || ((rmin r <=? rmin r1) && (rmax r <=? rmax r1))) eqn:F.
    + destruct (Ov r r1 E Mc Md ltac:(lia) ltac:(lia) F) as [n [N1 N2]]. exact (No n N1 N2).
    + exact (In' r r1 v1 R1 E E1 Mc L L1 ltac:(lia) ltac:(lia) F).
  - apply (No (Z.max (rmin r) (rmin r1))); unfold rin; rewrite ?E, ?E1; lia.
Qed.

(** *** Enumerating *)
Definition zseq (a : Z) (k : nat) : list Z := map (fun i => a + Z.of_nat i) (seq 0 k).
Lemma zseq_sorted a : forall k s, StronglySorted Z.lt (map (fun i => a + Z.of_nat i) (seq s k)).
Proof.
  induction k as [|k IH]; intros s; cbn [seq map]; constructor; [apply IH|]. apply Forall_forall. intros x I. apply in_map_iff in I. destruct I as [i [<- I]]. apply in_seq in I. lia.
Qed.
Lemma interval_listing r : rok sz r -> vec r = None -> listing r (zseq (rmin r) (Z.to_nat (rmax r - rmin r + 1))).
Proof.
  intros R E. split; [apply zseq_sorted|]. intros n. unfold zseq, rin. rewrite E, in_map_iff. split.
  - intros [i [<- I]]. apply in_seq in I. lia.
  - intros [H _]. exists (Z.to_nat (n - rmin r)). split; [lia|]. apply in_seq. lia.
Qed.
Lemma sparse_listing r v : rok sz r -> vec r = Some v -> rmin r <= rmax r -> listing r (enum v).
Proof.
  intros R E L. destruct (enum_ok v) as [A B]. split; [exact A|]. intros n. rewrite B. symmetry. now apply (rok_rin _ r v n R E L).
Qed.
Lemma listing_unique r l l' : listing r l -> listing r l' -> l = l'.
Proof.
  intros [A B] [C D]. assert (Q : forall x, In x l <-> In x l') by (intros; rewrite B, D; tauto). clear B D. revert l' C Q. induction l as [|a l IH]; intros l' C Q.
  - destruct l' as [|b l']; [reflexivity|]. exfalso. apply (proj2 (Q b)). now left.
  - destruct l' as [|b l']; [exfalso; apply (proj1 (Q a)); now left|]. apply StronglySorted_inv in A. destruct A as [A1 A2]. apply StronglySorted_inv in C. destruct C as [C1 C2]. rewrite Forall_forall in A2, C2.
    assert (a = b). { destruct (proj1 (Q a) (or_introl eq_refl)) as [|I1]; [auto|]. destruct (proj2 (Q b) (or_introl eq_refl)) as [|I2]; [auto|]. apply C2 in I1. apply A2 in I2. lia. }
    subst b. f_equal. apply IH; auto. intros x. split; intros I.
    + destruct (proj1 (Q x) (or_intror I)) as [->|]; [apply A2 in I; lia|assumption].
    + destruct (proj2 (Q x) (or_intror I)) as [->|]; [apply C2 in I; lia|assumption].
Qed.
Theorem Nb_Elem_ok r l : rok sz r -> rmin r <= rmax r -> is_int (rmax r - rmin r + 1) -> listing r l -> Range_Nb_Elem r = Ret (Z.of_nat (length l)).
Proof.
  intros R L B Hl. unfold Range_Nb_Elem. destruct (vec r) as [v|] eqn:E.
  - rewrite (listing_unique _ _ _ Hl (sparse_listing r v R E L)). now rewrite Nb_Elem_v.
  - rewrite (listing_unique _ _ _ Hl (interval_listing r R E)). rewrite ck_ok by ints. cbn [bind]. rewrite ck_ok by ints. unfold zseq. rewrite map_length, seq_length. f_equal. lia.
Qed.
Theorem Ith_Elem_ok r l i : rok sz r -> rmin r <= rmax r -> is_int (rmin r + i) -> is_int (rmin r + i - 1) -> listing r l ->
  Range_Ith_Elem r i = Ret (if 0 <? i then nth (Z.to_nat (i - 1)) l (-1) else -1).
Proof.
  intros R L B1 B2 Hl. unfold Range_Ith_Elem. nonempty L. destruct (vec r) as [v|] eqn:E.
  - rewrite (listing_unique _ _ _ Hl (sparse_listing r v R E L)). reflexivity.
  - rewrite (listing_unique _ _ _ Hl (interval_listing r R E)). rewrite ck_ok by exact B1. cbn [bind]. rewrite ck_ok by exact B2. cbn [bind]. destruct (Z.ltb_spec 0 i).
    + destruct (Z.ltb_spec (rmin r + i - 1) (rmin r)); [lia|]. cbn [orb]. unfold zseq. destruct (Z.ltb_spec (rmax r) (rmin r + i - 1)).
      * rewrite nth_overflow; [reflexivity|]. rewrite map_length, seq_length. lia.
      * rewrite (nth_indep _ (-1) ((fun i => rmin r + Z.of_nat i) O)) by (rewrite map_length, seq_length; lia). rewrite (map_nth (fun i => rmin r + Z.of_nat i)). rewrite seq_nth by lia. f_equal. lia.
    + destruct (Z.ltb_spec (rmin r + i - 1) (rmin r)); [reflexivity|lia].
Qed.
Theorem Next_After_ok r n : rok sz r -> rmin r <= rmax r -> is_int n ->
  exists x, Range_Next_After sz r n = Ret x /\ ((rin r x /\ n < x /\ forall m, rin r m -> n < m -> x <= m) \/ (x = -1 /\ forall m, rin r m -> m <= n)).
Proof.
  intros R L B. unfold Range_Next_After. nonempty L. destruct (vec r) as [v|] eqn:E.
  - pose proof (rok_vec _ _ _ R E) as V. pose proof (rok_bounds _ r v R E L) as Bo. assert (I : forall m, rin r m <-> vin v m = true) by (intros; now apply (rok_rin _ r v m R E L)).
    unfold Vector_Next_After. destruct (Z.leb_spec 0 n).
    + destruct (Z.ltb_spec vmax n).
      * eexists. split; [reflexivity|]. right. split; [reflexivity|]. intros m Hm. apply I in Hm. pose proof (vin_range _ _ _ V Hm). lia.
      * rewrite (rdv_ok sz small v n V) by lia. cbn [bind]. rewrite Word_No_ok, Bit_No_ok by ints. pose proof (Z.mod_pos_bound n 64 ltac:(lia)) as Mb. pose proof (Z.div_mod n 64 ltac:(lia)) as Dm. assert (D0 : 0 <= n / 64) by (apply Z.div_pos; lia).
        set (k := Z.to_nat (n / 64)). set (w := nth k v 0). pose proof (word_of sz v k V) as Hw. fold w in Hw.
        set (w' := if 64 <=? n mod 64 + 1 then 0 else Z.land w (Z.lxor (2 ^ 64 - 1) (Z.shiftl 1 (n mod 64 + 1) - 1))).
        assert (Tw : forall j, Z.testbit w' j = Z.testbit w j && (n mod 64 <? j)).
        { intros j. unfold w'. destruct (Z.lt_ge_cases j 0); [rewrite !Z.testbit_neg_r by lia; reflexivity|]. destruct (Z.leb_spec 64 (n mod 64 + 1)).
          - rewrite Z.bits_0. destruct (Z.ltb_spec (n mod 64) j); [|now rewrite andb_false_r]. now rewrite (word_high w j Hw) by lia.
          - rewrite Z.land_spec, Z.lxor_spec, all1_bit. rewrite Z.shiftl_1_l. replace (2 ^ (n mod 64 + 1) - 1) with (Z.ones (n mod 64 + 1)) by (rewrite Z.ones_equiv; lia). rewrite Z.testbit_ones_nonneg by lia. destruct (Z.leb_spec 0 j); [|lia]. destruct (Z.ltb_spec j 64).
            + destruct (Z.ltb_spec j (n mod 64 + 1)), (Z.ltb_spec (n mod 64) j); try lia; reflexivity.
            + rewrite (word_high w j Hw) by lia. reflexivity. }
        assert (Hw' : 0 <= w' < 2 ^ 64).
        { assert (0 <= w') by (unfold w'; destruct (64 <=? n mod 64 + 1); [lia|apply Z.land_nonneg; left; lia]). split; [assumption|]. apply word_bits; [|assumption]. intros j Hj. rewrite Tw, (word_high w j Hw) by lia. reflexivity. }
        assert (Sp : v = firstn k v ++ w :: skipn (S k) v).
        { apply split_at. rewrite (proj1 V). unfold k, FdRange_Model.vmax in *. lia. }
        assert (Lk : length (firstn k v) = k) by (rewrite firstn_length, (proj1 V); unfold k; unfold FdRange_Model.vmax in *; lia).
        assert (Vi : forall m, vin (w' :: skipn (S k) v) (m - 64 * (n / 64)) = vin v m && (n <? m)).
        { intros m. rewrite Sp at 2. rewrite vin_app, Lk. replace (Z.of_nat k) with (n / 64) by (unfold k; lia). rewrite vin_cons. destruct (Z.ltb_spec (m - 64 * (n / 64)) 0), (Z.ltb_spec m (64 * (n / 64))); try lia.
          rewrite vin_cons. destruct (Z.ltb_spec (m - 64 * (n / 64)) 0); [lia|]. destruct (Z.ltb_spec (m - 64 * (n / 64)) 64).
            + rewrite Tw. f_equal. destruct (Z.ltb_spec (n mod 64) (m - 64 * (n / 64))), (Z.ltb_spec n m); lia || reflexivity.
            + destruct (Z.ltb_spec n m); [|lia]. now rewrite andb_true_r. }
        eexists. split; [reflexivity|]. fold k. rewrite find_up_first.
        assert (Fo : Forall (fun w => 0 <= w < 2 ^ 64) (w' :: skipn (S k) v)) by (constructor; [exact Hw'|]; apply Forall_forall; intros x Hx; pose proof (proj2 V) as V2; rewrite Forall_forall in V2; apply V2; rewrite <- (firstn_skipn (S k) v); apply in_or_app; now right).
        pose proof (first_up_ok _ (n / 64) Fo) as F. destruct (first_up _ _) as [x|].
        -- destruct F as [y [-> [F1 F2]]]. left. set (x := 64 * (n / 64) + y). replace y with (x - 64 * (n / 64)) in F1, F2 by (unfold x; lia). rewrite Vi in F1. apply andb_prop in F1. destruct F1 as [F1 F1']. apply Z.ltb_lt in F1'. split; [now apply I|]. split; [exact F1'|]. intros m Hm Hnm. apply I in Hm.
           specialize (F2 (m - 64 * (n / 64))). rewrite Vi, Hm in F2. apply Z.ltb_lt in Hnm. specialize (F2 Hnm). lia.
        -- right. split; [reflexivity|]. intros m Hm. apply I in Hm. specialize (F (m - 64 * (n / 64))). rewrite Vi, Hm in F. cbn [andb] in F. apply Z.ltb_ge in F. exact F.
    + destruct v as [|w v]; [destruct V as [V _]; cbn in V; unfold FdRange_Model.vmax in Bo; lia|]. cbn [rdv length]. unfold rdv. destruct (Z.ltb_spec 0 (Z.of_nat (length (w :: v)))); [|cbn [length] in *; lia]. cbn [Z.leb Z.compare andb nth Z.to_nat bind skipn].
      eexists. split; [reflexivity|]. rewrite find_up_first. pose proof (first_up_ok _ 0 (proj2 V)) as F. destruct (first_up _ _) as [x|].
      * destruct F as [y [-> [F1 F2]]]. replace (64 * 0 + y) with y by lia. left. split; [now apply I|]. pose proof (vin_range _ _ _ V F1). split; [lia|]. intros m Hm _. apply F2. now apply I.
      * right. split; [reflexivity|]. intros m Hm. apply I in Hm. rewrite F in Hm. discriminate.
  - destruct (Z.leb_spec (rmax r) n).
    + eexists. split; [reflexivity|]. right. split; [reflexivity|]. intros m [Hm _]. lia.
    + eexists. split; [reflexivity|]. left. unfold rin. rewrite E. repeat split; lia.
Qed.
Theorem Next_Before_ok r n : rok sz r -> rmin r <= rmax r -> is_int n ->
  exists x, Range_Next_Before sz r n = Ret x /\ ((rin r x /\ x < n /\ forall m, rin r m -> m < n -> m <= x) \/ (x = -1 /\ forall m, rin r m -> n <= m)).
Proof.
  intros R L B. unfold Range_Next_Before. nonempty L. destruct (vec r) as [v|] eqn:E.
  - pose proof (rok_vec _ _ _ R E) as V. pose proof (rok_bounds _ r v R E L) as Bo. assert (I : forall m, rin r m <-> vin v m = true) by (intros; now apply (rok_rin _ r v m R E L)).
    unfold Vector_Next_Before. destruct (Z.leb_spec n vmax).
    + destruct (Z.ltb_spec n 0).
      * eexists. split; [reflexivity|]. right. split; [reflexivity|]. intros m Hm. apply I in Hm. pose proof (vin_range _ _ _ V Hm). lia.
      * rewrite (rdv_ok sz small v n V) by lia. cbn [bind]. rewrite Word_No_ok, Bit_No_ok by ints. pose proof (Z.mod_pos_bound n 64 ltac:(lia)) as Mb. pose proof (Z.div_mod n 64 ltac:(lia)) as Dm. assert (D0 : 0 <= n / 64) by (apply Z.div_pos; lia).
        set (k := Z.to_nat (n / 64)). set (w := nth k v 0). pose proof (word_of sz v k V) as Hw. fold w in Hw. set (w' := Z.land w (Z.shiftl 1 (n mod 64) - 1)).
        assert (Tw : forall j, Z.testbit w' j = Z.testbit w j && (j <? n mod 64)).
        { intros j. unfold w'. destruct (Z.lt_ge_cases j 0); [rewrite !Z.testbit_neg_r by lia; reflexivity|]. rewrite Z.land_spec, Z.shiftl_1_l. replace (2 ^ (n mod 64) - 1) with (Z.ones (n mod 64)) by (rewrite Z.ones_equiv; lia). now rewrite Z.testbit_ones_nonneg by lia. }
        assert (Hw' : 0 <= w' < 2 ^ 64).
        { assert (0 <= w') by (unfold w'; apply Z.land_nonneg; left; lia). split; [assumption|]. apply word_bits; [|assumption]. intros j Hj. rewrite Tw, (word_high w j Hw) by lia. reflexivity. }
        assert (Sp : v = firstn k v ++ w :: skipn (S k) v).
        { apply split_at. rewrite (proj1 V). unfold k, FdRange_Model.vmax in *. lia. }
        assert (Lk : length (firstn k v) = k) by (rewrite firstn_length, (proj1 V); unfold k; unfold FdRange_Model.vmax in *; lia).
        assert (Vi : forall m, vin (firstn k v ++ [w']) m = vin v m && (m <? n)).
        { intros m. rewrite Sp at 2. rewrite !vin_app, Lk. replace (Z.of_nat k) with (n / 64) by (unfold k; lia). rewrite !vin_cons, vin_nil. destruct (Z.ltb_spec m (64 * (n / 64))).
          - destruct (Z.ltb_spec m n); [now rewrite andb_true_r|lia].
          - destruct (Z.ltb_spec (m - 64 * (n / 64)) 0); [lia|]. destruct (Z.ltb_spec (m - 64 * (n / 64)) 64).
            + rewrite Tw. f_equal. destruct (Z.ltb_spec (m - 64 * (n / 64)) (n mod 64)), (Z.ltb_spec m n); lia || reflexivity.
            + destruct (Z.ltb_spec m n); [lia|]. now rewrite andb_false_r. }
        eexists. split; [reflexivity|]. fold k. rewrite find_down_first.
        assert (Fo : Forall (fun w => 0 <= w < 2 ^ 64) (w' :: rev (firstn k v))) by (constructor; [exact Hw'|]; apply Forall_rev; apply Forall_forall; intros x Hx; pose proof (proj2 V) as V2; rewrite Forall_forall in V2; apply V2; rewrite <- (firstn_skipn k v); apply in_or_app; now left).
        pose proof (first_down_ok _ Fo) as F. cbn [rev length] in F. rewrite rev_involutive, rev_length, Lk in F. replace (Z.of_nat (S k) - 1) with (n / 64) in F by (unfold k; lia). destruct (first_down _ _) as [x|].
        -- destruct F as [F1 F2]. left. rewrite Vi in F1. apply andb_prop in F1. destruct F1 as [F1 F1']. apply Z.ltb_lt in F1'. split; [now apply I|]. split; [exact F1'|]. intros m Hm Hnm. apply I in Hm. apply F2. rewrite Vi, Hm. now apply Z.ltb_lt.
        -- right. split; [reflexivity|]. intros m Hm. apply I in Hm. specialize (F m). rewrite Vi, Hm in F. cbn [andb] in F. apply Z.ltb_ge in F. exact F.
    + assert (S0 : (0 < sz)%nat) by (unfold FdRange_Model.vmax in *; lia). unfold rdv. rewrite (proj1 V). destruct (Z.leb_spec 0 (Z.of_nat sz - 1)); [|lia]. destruct (Z.ltb_spec (Z.of_nat sz - 1) (Z.of_nat sz)); [|lia]. cbn [andb bind].
      eexists. split; [reflexivity|]. rewrite find_down_first. set (k := (sz - 1)%nat). replace (Z.to_nat (Z.of_nat sz - 1)) with k by lia.
      assert (Sp : v = firstn k v ++ [nth k v 0]).
      { apply split_last. rewrite (proj1 V). unfold k. lia. }
      assert (Fo : Forall (fun w => 0 <= w < 2 ^ 64) (nth k v 0 :: rev (firstn k v))) by (pose proof (proj2 V) as V2; rewrite Sp in V2; apply Forall_rev in V2; rewrite rev_app_distr in V2; exact V2).
      pose proof (first_down_ok _ Fo) as F. cbn [rev length] in F. rewrite rev_involutive, rev_length, firstn_length, (proj1 V) in F. replace (Z.of_nat (S (Nat.min k sz)) - 1) with (Z.of_nat sz - 1) in F by lia. rewrite <- Sp in F. destruct (first_down _ _) as [x|].
      * destruct F as [F1 F2]. left. split; [now apply I|]. pose proof (vin_range _ _ _ V F1). split; [lia|]. intros m Hm _. apply F2. now apply I.
      * right. split; [reflexivity|]. intros m Hm. apply I in Hm. rewrite F in Hm. discriminate.
  - destruct (Z.leb_spec n (rmin r)).
    + eexists. split; [reflexivity|]. right. split; [reflexivity|]. intros m [Hm _]. lia.
    + eexists. split; [reflexivity|]. left. unfold rin. rewrite E. repeat split; lia.
Qed.

(** *** Set operations *)
Lemma empty_false r : Is_Empty r = false -> rmin r <= rmax r.
Proof. unfold Is_Empty. apply Z.ltb_ge. Qed.
Lemma empty_true r : Is_Empty r = true -> rmax r < rmin r.
Proof. unfold Is_Empty. apply Z.ltb_lt. Qed.
Lemma rin_empty r n : rmax r < rmin r -> ~ rin r n.
Proof. clear small. intros L [H _]. lia. Qed.
Lemma rok_extra r v e : rok sz r -> vec r = Some v -> rok sz (set_extra r e).
Proof. intros [A [B C]] E. split; [exact A|]. split; [exact B|]. cbn. rewrite E in *. exact C. Qed.
Theorem Set_Value_ok junk a r n T : vok sz junk -> around_ok a -> rok sz r -> is_int n -> n <> INT_MIN -> means sz r T -> rmax r < INT_MAX ->
  (rmax r < rmin r -> extra_cstr r = false) -> (vec r = None -> rmin r <= rmax r -> 0 <= rmax r /\ rmin r <= vmax) ->
  exists r', Range_Set_Value sz junk a r n = Ret r' /\ rok sz r' /\ means sz r' (fun x => x = n \/ T x).
Proof.
  intros J A R Bn Nn M Bm X1 X2. unfold Range_Set_Value. destruct (Is_Empty r) eqn:Em.
  - apply empty_true in Em. eexists. split; [reflexivity|]. split; [split; [cbn; ints|]; split; [cbn; ints|reflexivity]|]. intros x Hx _. unfold rin. cbn. rewrite <- (M x Hx (or_introl (X1 Em))). pose proof (rin_empty r x Em). split; [intros [H0 _]; left; lia|intros [->|H0]; [split; [lia|exact I]|tauto]].
  - apply empty_false in Em. pose proof R as [R1 [R2 R3]].
    assert (Main : forall e p q v, vok sz v -> rok sz (Range e p q (Some v)) -> p <= q -> means sz (Range e p q (Some v)) T -> 0 <= n <= vmax -> exists r', (do v <- Vector_Set_Value v n; Range_From_Vector a (Range e p q (Some v))) = Ret r' /\ rok sz r' /\ means sz r' (fun x => x = n \/ T x)).
    { intros e p q v V Rv Lv Mv Hn. destruct (Set_ok sz small v n V Hn) as [v' [Q1 [Q2 Q3]]]. rewrite Q1. cbn [bind]. destruct (From_Vector_ok sz small a e p q v' A Q2) as [r' [F1 [F2 [F3 [F4 F5]]]]]; [exact (proj1 Rv)|]. exists r'. split; [exact F1|]. split; [exact F4|].
      intros x Hx Hb. rewrite F5, Q3, orb_true_iff, Z.eqb_eq. rewrite F3 in Hb. rewrite <- (Mv x Hx Hb). rewrite (rok_rin sz _ v x Rv eq_refl Lv). tauto. }
    destruct (vec r) as [v|] eqn:E.
    + rewrite (beyond_ok sz small n Bn). assert (V := rok_vec _ _ _ R E). assert (Er : r = Range (extra_cstr r) (rmin r) (rmax r) (Some v)) by (destruct r; cbn in *; now rewrite E). destruct (Z.ltb_spec n 0), (Z.ltb_spec vmax n); cbn [orb].
      1-3: eexists; (split; [reflexivity|]); (split; [split; [exact R1|split; [exact R2|cbn; rewrite E; exact R3]]|]);
        intros x Hx [Hb|Hb]; [discriminate|]; unfold rin; cbn; rewrite E; rewrite <- (M x Hx (or_intror Hb)); unfold rin; rewrite E; split; [intros Q; now right|intros [->|Q]; [lia|exact Q]].
      assert (Hn : 0 <= n <= vmax) by lia. destruct (Z.ltb_spec n (rmin r)); [|destruct (Z.ltb_spec (rmax r) n)].
      * destruct (Main (extra_cstr r) (rmin r) (rmax r) v V ltac:(now rewrite <- Er) Em ltac:(now rewrite <- Er) Hn) as [r' [Y1 Y2]]. exists r'. split; [|exact Y2]. rewrite <- Y1. destruct (Vector_Set_Value v n); cbn [bind rmin rmax]; [|reflexivity..]. destruct (Z.ltb_spec n (rmin r)); [reflexivity|lia].
      * destruct (Main (extra_cstr r) (rmin r) (rmax r) v V ltac:(now rewrite <- Er) Em ltac:(now rewrite <- Er) Hn) as [r' [Y1 Y2]]. exists r'. split; [|exact Y2]. rewrite <- Y1. destruct (Vector_Set_Value v n); cbn [bind rmin rmax]; [|reflexivity..]. destruct (Z.ltb_spec (rmax r) n); [now rewrite orb_true_r|lia].
      * destruct (Set_ok sz small v n V Hn) as [v' [Q1 [Q2 Q3]]]. rewrite Q1. cbn [bind rmin rmax]. destruct (Z.ltb_spec n (rmin r)); [lia|]. destruct (Z.ltb_spec (rmax r) n); [lia|]. cbn [orb]. eexists. split; [reflexivity|]. destruct R3 as [_ R3]. destruct (R3 Em) as [Ra [Rb Rc]]. split.
        -- split; [exact R1|]. split; [exact R2|]. cbn. split; [exact Q2|]. intros _. rewrite !Q3, Ra, Rb, !orb_true_r. split; [reflexivity|]. split; [reflexivity|]. intros x. rewrite Q3, orb_true_iff, Z.eqb_eq. intros [->|Q]; [lia|now apply Rc].
        -- intros x Hx Hb. cbn in Hb. rewrite <- (M x Hx Hb). unfold rin. rewrite E. cbn. rewrite Q3, orb_true_iff, Z.eqb_eq. split; [tauto|]. intros [->|Q]; [split; [lia|now left]|tauto].
    + destruct (Z.leb_spec (rmin r) n), (Z.leb_spec n (rmax r)); cbn [andb].
      { exists r. split; [reflexivity|]. split; [exact R|]. intros x Hx Hb. rewrite <- (M x Hx Hb). split; [tauto|]. intros [->|Q]; [|exact Q]. unfold rin. rewrite E. split; [lia|exact I]. }
      all: rewrite (ck_ok (rmin r - 1)) by ints; cbn [bind]; destruct (Z.eqb_spec n (rmin r - 1)) as [N1|N1]; [try lia|].
      all: try (rewrite (ck_ok (rmax r + 1)) by ints; cbn [bind]; destruct (Z.eqb_spec n (rmax r + 1)) as [N2|N2]; [try lia|]).
      all: try (eexists; split; [reflexivity|]; split; [split; [cbn; ints|split; [cbn; ints|exact R3]]|]; intros x Hx Hb; rewrite <- (M x Hx (or_introl R3)); unfold rin; rewrite E; cbn; split; [intros [? _]; lia|intros [->|[? _]]; (split; [lia|exact I])]).
      all: destruct (X2 eq_refl Em) as [X3 X4]; destruct (Becomes_Sparse_ok sz small junk r J R E) as [v' [Q1 [Q2 _]]]; cbv zeta in Q1, Q2; rewrite Q1; cbn [bind]; rewrite (beyond_ok sz small n Bn).
      all: assert (M' : means sz (Range (vmax <? rmax r) (Z.max 0 (rmin r)) (Z.min vmax (rmax r)) (Some v')) T) by (destruct (sparse_copy_ok sz small junk r J R) as [r' [w [S1 [S2 [S3 [S4 _]]]]]]; unfold sparse_copy in S1; rewrite E, Q1 in S1; injection S1 as <-; now apply S4).
      all: destruct (Z.ltb_spec n 0), (Z.ltb_spec vmax n); cbn [orb]; try lia.
      all: try (eexists; split; [reflexivity|]; split; [split; [exact (proj1 Q2)|split; [exact (proj1 (proj2 Q2))|exact (proj2 (proj2 Q2))]]|]; intros x Hx [Hb|Hb]; [discriminate|]; rewrite <- (M' x Hx (or_intror Hb)); unfold rin; cbn; split; [intros Q; now right|intros [->|Q]; [lia|exact Q]]).
      all: cbn [vec extra_cstr rmin rmax]; apply (Main _ _ _ v'); auto; try lia; apply (rok_vec _ _ _ Q2 eq_refl).
Qed.
Theorem Reset_Value_ok junk a r n T : vok sz junk -> around_ok a -> rok sz r -> is_int n -> means sz r T ->
  (vec r = None -> ~ (rmin r < 0 /\ n = 0 /\ 0 < rmax r) /\ ~ (vmax < rmax r /\ n = vmax /\ rmin r < vmax)) ->
  exists r', Range_Reset_Value sz junk a r n = Ret r' /\ rok sz r' /\ means sz r' (fun x => x <> n /\ T x).
Proof.
  intros J A R Bn M X. unfold Range_Reset_Value. pose proof R as [R1 [R2 R3]].
  assert (Same : (~ rin r n) -> exists r', Ret r = Ret r' /\ rok sz r' /\ means sz r' (fun x => x <> n /\ T x)).
  { intros Q. exists r. split; [reflexivity|]. split; [exact R|]. intros x Hx Hb. rewrite <- (M x Hx Hb). split; [|tauto]. intros I. split; [|exact I]. intros ->. contradiction. }
  destruct (Is_Empty r) eqn:Em; cbn [orb]; [apply Same, rin_empty, empty_true, Em|]. apply empty_false in Em.
  destruct (Z.ltb_spec n (rmin r)); cbn [orb]; [apply Same; intros [? _]; lia|]. destruct (Z.ltb_spec (rmax r) n); cbn [orb]; [apply Same; intros [? _]; lia|].
  destruct (Z.eqb_spec (rmin r) (rmax r)) as [Q|Q].
  - eexists. split; [reflexivity|]. split.
    + split; [exact R1|]. split; [cbn; ints|]. cbn. destruct (vec r) as [v|]; [split; [apply R3|ints]|exact R3].
    + intros x Hx Hb. cbn in Hb. rewrite <- (M x Hx Hb). unfold rin. cbn. split; [ints|]. intros [N [B _]]. lia.
  - destruct (vec r) as [v|] eqn:E.
    + pose proof (rok_vec _ _ _ R E) as V. pose proof (rok_bounds _ r v R E Em) as Bo. rewrite (beyond_ok sz small n Bn). destruct (Z.ltb_spec n 0); [lia|]. destruct (Z.ltb_spec vmax n); [lia|]. cbn [orb]. destruct (Reset_ok sz small v n V ltac:(lia)) as [v' [Q1 [Q2 Q3]]]. rewrite Q1. cbn [bind rmin rmax].
      destruct (Z.eqb_spec n (rmin r)) as [N1|N1]; [|destruct (Z.eqb_spec n (rmax r)) as [N2|N2]]; cbn [orb].
      1-2: destruct (From_Vector_ok sz small a (extra_cstr r) (rmin r) (rmax r) v' A Q2 R1) as [r' [F1 [F2 [F3 [F4 F5]]]]]; exists r'; (split; [exact F1|]); (split; [exact F4|]); intros x Hx Hb; rewrite F3 in Hb; rewrite <- (M x Hx Hb); rewrite F5, Q3, (rok_rin sz _ v x R E Em); rewrite andb_true_iff, negb_true_iff, Z.eqb_neq; tauto.
      eexists. split; [reflexivity|]. destruct R3 as [_ R3]. destruct (R3 Em) as [Ra [Rb Rc]]. split.
      * split; [exact R1|]. split; [exact R2|]. cbn. split; [exact Q2|]. intros _. rewrite !Q3, Ra, Rb, !andb_true_r, !negb_true_iff, !Z.eqb_neq. split; [lia|]. split; [lia|]. intros x. rewrite Q3, andb_true_iff. intros [_ Y]. now apply Rc.
      * intros x Hx Hb. cbn in Hb. rewrite <- (M x Hx Hb). unfold rin. rewrite E. cbn. rewrite Q3, andb_true_iff, negb_true_iff, Z.eqb_neq. tauto.
    + destruct (Z.eqb_spec n (rmin r)) as [N1|N1]; [|destruct (Z.eqb_spec n (rmax r)) as [N2|N2]].
      * rewrite ck_ok by ints. cbn [bind]. eexists. split; [reflexivity|]. split; [split; [cbn; ints|split; [cbn; ints|exact R3]]|]. intros x Hx Hb. rewrite <- (M x Hx (or_introl R3)). unfold rin. rewrite E. cbn. split; [intros [? _]; (split; [lia|split; [lia|exact I]])|intros [? [? _]]; split; [lia|exact I]].
      * rewrite ck_ok by ints. cbn [bind]. eexists. split; [reflexivity|]. split; [split; [cbn; ints|split; [cbn; ints|exact R3]]|]. intros x Hx Hb. rewrite <- (M x Hx (or_introl R3)). unfold rin. rewrite E. cbn. split; [intros [? _]; (split; [lia|split; [lia|exact I]])|intros [? [? _]]; split; [lia|exact I]].
      * destruct (Becomes_Sparse_ok sz small junk r J R E) as [v' [Q1 [Q2 _]]]; cbv zeta in Q1, Q2; rewrite Q1; cbn [bind]; rewrite (beyond_ok sz small n Bn).
        assert (M' : means sz (Range (vmax <? rmax r) (Z.max 0 (rmin r)) (Z.min vmax (rmax r)) (Some v')) T) by (destruct (sparse_copy_ok sz small junk r J R) as [r' [w [S1 [S2 [S3 [S4 _]]]]]]; unfold sparse_copy in S1; rewrite E, Q1 in S1; injection S1 as <-; now apply S4).
        destruct (X eq_refl) as [X1 X2].
        destruct (Z.ltb_spec n 0), (Z.ltb_spec vmax n); cbn [orb].
        1-3: eexists; (split; [reflexivity|]); (split; [exact Q2|]); intros x Hx Hb; rewrite <- (M' x Hx Hb); (split; [intros Y; split; [|exact Y]|tauto]); pose proof Y as [Y0 _]; cbn in Y0; lia.
        cbn [vec]. destruct (Reset_ok sz small v' n (rok_vec _ _ _ Q2 eq_refl) ltac:(lia)) as [w [W1 [W2 W3]]]. rewrite W1. cbn [bind extra_cstr rmin rmax]. eexists. split; [reflexivity|]. pose proof Q2 as [Q2a [Q2b [_ Q2c]]]. destruct (Q2c ltac:(cbn; lia)) as [Ra [Rb Rc]]. cbn [rmin rmax] in *. split.
        -- split; [exact Q2a|]. split; [exact Q2b|]. cbn. split; [exact W2|]. intros _. rewrite !W3, Ra, Rb, !andb_true_r, !negb_true_iff, !Z.eqb_neq. split; [lia|]. split; [lia|]. intros x. rewrite W3, andb_true_iff. intros [_ Y]. now apply Rc.
        -- intros x Hx Hb. cbn in Hb. rewrite <- (M' x Hx Hb). unfold rin. cbn. rewrite W3, andb_true_iff, negb_true_iff, Z.eqb_neq. tauto.
Qed.
Theorem Union_ok junk junk1 r r1 T T1 : vok sz junk -> vok sz junk1 -> rok sz r -> rok sz r1 -> means sz r T -> means sz r1 T1 -> rmax r < INT_MAX -> rmax r1 < INT_MAX ->
  exists r', Range_Union sz junk junk1 r r1 = Ret r' /\ rok sz r' /\ means sz r' (fun x => T x \/ T1 x).
Proof.
  intros J J1 R R1 M M1 B B1. unfold Range_Union.
  cbv zeta. match goal with |- exists r', match vec r with Some _ => ?s | None => _ end = _ /\ _ => set (sparse := s) end.
  assert (S : exists r', sparse = Ret r' /\ rok sz r' /\ means sz r' (fun x => T x \/ T1 x)).
  { unfold sparse. destruct (sparse_copy_ok sz small junk r J R) as [s [v [S1 [S2 [S3 [S4 _]]]]]]. destruct (sparse_copy_ok sz small junk1 r1 J1 R1) as [s1 [v1 [Y1 [Y2 [Y3 [Y4 _]]]]]]. rewrite S1. cbn [bind]. rewrite Y1. cbn [bind]. specialize (S4 T M). specialize (Y4 T1 M1).
    assert (Pick : forall e x, (extra_cstr s || extra_cstr s1 = e) -> e = false \/ x <= vmax -> (extra_cstr s = false \/ x <= vmax) /\ (extra_cstr s1 = false \/ x <= vmax)).
    { intros e x <- [Q|Q]; [apply orb_false_elim in Q; tauto|tauto]. }
    destruct (Is_Empty s) eqn:Es.
    { eexists. split; [reflexivity|]. split; [exact (rok_extra _ _ _ Y3 Y2)|]. intros x Hx Hb. cbn in Hb. destruct (Pick _ x eq_refl Hb) as [P1 P2]. rewrite <- (S4 x Hx P1), <- (Y4 x Hx P2). pose proof (rin_empty s x (empty_true _ Es)). unfold rin in *. cbn. tauto. }
    destruct (Is_Empty s1) eqn:Es1.
    { eexists. split; [reflexivity|]. split; [exact (rok_extra _ _ _ S3 S2)|]. intros x Hx Hb. cbn in Hb. destruct (Pick _ x eq_refl Hb) as [P1 P2]. rewrite <- (S4 x Hx P1), <- (Y4 x Hx P2). pose proof (rin_empty s1 x (empty_true _ Es1)). unfold rin in *. cbn. tauto. }
    apply empty_false in Es, Es1. unfold the_vec. rewrite S2, Y2. destruct (Union_v sz v v1 (rok_vec _ _ _ S3 S2) (rok_vec _ _ _ Y3 Y2)) as [U1 U2]. eexists. split; [reflexivity|].
    assert (I : forall x, vin (Vector_Union v v1) x = true <-> rin s x \/ rin s1 x) by (intros x; rewrite U2, orb_true_iff, (rok_rin sz s v x S3 S2 Es), (rok_rin sz s1 v1 x Y3 Y2 Es1); tauto).
    pose proof S3 as [Sa [Sb Sc]]. rewrite S2 in Sc. destruct Sc as [_ Sc]. destruct (Sc Es) as [Sd [Se Sf]]. pose proof Y3 as [Ya [Yb Yc]]. rewrite Y2 in Yc. destruct Yc as [_ Yc]. destruct (Yc Es1) as [Yd [Ye Yf]]. split.
    - split; [cbn; ints|]. split; [cbn; ints|]. cbn. split; [exact U1|]. intros _. split; [|split].
      + rewrite U2. destruct (Z.min_spec (rmin s) (rmin s1)) as [[_ ->]|[_ ->]]; [rewrite Sd|rewrite Yd]; now rewrite ?orb_true_r.
      + rewrite U2. destruct (Z.max_spec (rmax s) (rmax s1)) as [[_ ->]|[_ ->]]; [rewrite Ye|rewrite Se]; now rewrite ?orb_true_r.
      + intros x. rewrite U2, orb_true_iff. intros [Q|Q]; [specialize (Sf x Q)|specialize (Yf x Q)]; lia.
    - intros x Hx Hb. cbn in Hb. destruct (Pick _ x eq_refl Hb) as [P1 P2]. rewrite <- (S4 x Hx P1), <- (Y4 x Hx P2). rewrite <- I. unfold rin. cbn. split; [tauto|]. intros Q. split; [|exact Q]. apply I in Q. destruct Q as [[Q _]|[Q _]]; lia. }
  destruct (vec r) as [v|] eqn:E, (vec r1) as [v1|] eqn:E1; try exact S.
  destruct (Is_Empty r) eqn:Er; cbn [negb andb]; [exact S|]. destruct (Is_Empty r1) eqn:Er1; cbn [negb andb]; [exact S|]. apply empty_false in Er, Er1.
  pose proof R as [Ra [Rb Rc]]. pose proof R1 as [Rd [Re Rf]]. rewrite E in Rc. rewrite E1 in Rf. rewrite ck_ok by ints. cbn [bind]. destruct (Z.leb_spec (rmin r1) (rmax r + 1)); [|exact S]. rewrite ck_ok by ints. cbn [bind]. destruct (Z.leb_spec (rmin r) (rmax r1 + 1)); [|exact S].
  eexists. split; [reflexivity|]. split; [split; [cbn; ints|split; [cbn; ints|exact Rc]]|]. intros x Hx _. rewrite <- (M x Hx (or_introl Rc)), <- (M1 x Hx (or_introl Rf)). unfold rin. rewrite E, E1. cbn. lia.
Qed.
Theorem Inter_ok junk a r r1 T T1 : vok sz junk -> around_ok a -> rok sz r -> rok sz r1 -> means sz r T -> means sz r1 T1 ->
  exists r', Range_Inter sz junk a r r1 = Ret r' /\ rok sz r' /\ means sz r' (fun x => T x /\ T1 x).
Proof.
  intros J A R R1 M M1. unfold Range_Inter.
  match goal with |- exists r', match vec r with Some _ => ?s | None => _ end = _ /\ _ => set (sparse := s) end.
  assert (S : exists r', sparse = Ret r' /\ rok sz r' /\ means sz r' (fun x => T x /\ T1 x)).
  { unfold sparse. destruct (sparse_copy_ok sz small junk r J R) as [s [v [S1 [S2 [S3 [S4 [Si _]]]]]]]. destruct (sparse_copy_ok sz small junk r1 J R1) as [s1 [v1 [Y1 [Y2 [Y3 [Y4 [Yi _]]]]]]]. rewrite S1. cbn [bind]. rewrite Y1. cbn [bind]. specialize (S4 T M). specialize (Y4 T1 M1).
    assert (Pick : forall x, 0 <= x -> extra_cstr s && extra_cstr s1 = false \/ x <= vmax -> (rin s x /\ rin s1 x <-> T x /\ T1 x)).
    { intros x Hx [Q|Q].
      - destruct (Z.le_gt_cases x vmax) as [Le|Le]; [now rewrite (S4 x Hx (or_intror Le)), (Y4 x Hx (or_intror Le))|]. apply andb_false_iff in Q. rewrite Si, Yi. split; [lia|]. intros [Q1 Q2]. destruct Q as [Q|Q].
        + apply (S4 x Hx (or_introl Q)) in Q1. apply Si in Q1. lia.
        + apply (Y4 x Hx (or_introl Q)) in Q2. apply Yi in Q2. lia.
      - now rewrite (S4 x Hx (or_intror Q)), (Y4 x Hx (or_intror Q)). }
    destruct (Is_Empty s) eqn:Es.
    { eexists. split; [reflexivity|]. split; [exact (rok_extra _ _ _ S3 S2)|]. intros x Hx Hb. cbn in Hb. rewrite <- (Pick x Hx Hb). pose proof (rin_empty s x (empty_true _ Es)). unfold rin in *. cbn. tauto. }
    destruct (Is_Empty s1) eqn:Es1.
    { eexists. split; [reflexivity|]. pose proof S3 as [Sa [Sb Sc]]. split.
      - split; [exact Sa|]. split; [cbn; ints|]. cbn. rewrite S2 in *. split; [apply Sc|ints].
      - intros x Hx Hb. cbn in Hb. rewrite <- (Pick x Hx Hb). pose proof (rin_empty s1 x (empty_true _ Es1)). unfold rin at 1. cbn. split; [intros [? _]; ints|tauto]. }
    apply empty_false in Es, Es1. unfold the_vec. rewrite S2, Y2. destruct (Inter_v sz v v1 (rok_vec _ _ _ S3 S2) (rok_vec _ _ _ Y3 Y2)) as [U1 U2].
    destruct (From_Vector_ok sz small a (extra_cstr s && extra_cstr s1) (rmin s) (rmax s) _ A U1 (proj1 S3)) as [r' [F1 [F2 [F3 [F4 F5]]]]]. exists r'. split; [exact F1|]. split; [exact F4|]. intros x Hx Hb. rewrite F3 in Hb. rewrite <- (Pick x Hx Hb). rewrite F5, U2, andb_true_iff, (rok_rin sz s v x S3 S2 Es), (rok_rin sz s1 v1 x Y3 Y2 Es1). tauto. }
  destruct (vec r) as [v|] eqn:E, (vec r1) as [v1|] eqn:E1; try exact S.
  pose proof R as [Ra [Rb Rc]]. pose proof R1 as [Rd [Re Rf]]. rewrite E in Rc. rewrite E1 in Rf.
  eexists. split; [reflexivity|]. split; [split; [cbn; ints|split; [cbn; ints|exact Rc]]|]. intros x Hx _. rewrite <- (M x Hx (or_introl Rc)), <- (M1 x Hx (or_introl Rf)). unfold rin. rewrite E, E1. cbn. lia.
Qed.
Theorem Compl_ok junk a r T : vok sz junk -> around_ok a -> rok sz r -> (vec r = None -> rmin r <= IMAX) -> means sz r T ->
  exists r', Range_Compl sz junk a r = Ret r' /\ rok sz r' /\ means sz r' (fun x => x <= IMAX /\ ~ T x).
Proof.
  intros J A R Mi M. unfold Range_Compl.
  cbv zeta.
  assert (S : forall s v, vec s = Some v -> rok sz s -> means sz s T -> exists r', (if Is_Empty s then Ret (Range true 0 vmax (Some (Vector_Full sz))) else Range_From_Vector a (Range true (rmin s) (rmax s) (Some (Vector_Compl (the_vec s))))) = Ret r' /\ rok sz r' /\ means sz r' (fun x => x <= IMAX /\ ~ T x)).
  { intros s v E Rs Ms. destruct (Is_Empty s) eqn:Es.
    - eexists. split; [reflexivity|]. destruct (Full_ok sz) as [F1 F2]. split.
      + split; [cbn; ints|]. split; [cbn; ints|]. cbn [vec rmin rmax]. split; [exact F1|]. intros L. rewrite !F2. split; [apply andb_true_intro; split; apply Z.leb_le; lia|]. split; [apply andb_true_intro; split; apply Z.leb_le; lia|]. intros n. rewrite F2. intros Q. apply andb_prop in Q. destruct Q as [Q1 Q2]. apply Z.leb_le in Q1, Q2. lia.
      + intros x Hx [Hb|Hb]; [discriminate|]. rewrite <- (Ms x Hx (or_intror Hb)). pose proof (rin_empty s x (empty_true _ Es)). unfold rin at 1. cbn. rewrite F2. assert (Q : (0 <=? x) && (x <=? vmax) = true) by (apply andb_true_intro; split; apply Z.leb_le; lia). rewrite Q. unfold IMAX. split; [intros _; split; [ints|assumption]|intros _; split; [lia|reflexivity]].
    - apply empty_false in Es. unfold the_vec. rewrite E. destruct (Compl_v sz v (rok_vec _ _ _ Rs E)) as [C1 C2]. destruct (From_Vector_ok sz small a true (rmin s) (rmax s) _ A C1 (proj1 Rs)) as [r' [F1 [F2 [F3 [F4 F5]]]]]. exists r'. split; [exact F1|]. split; [exact F4|]. intros x Hx Hb. rewrite F3 in Hb. destruct Hb as [Hb|Hb]; [discriminate|].
      rewrite F5, C2, <- (Ms x Hx (or_intror Hb)), (rok_rin sz s v x Rs E Es). rewrite !andb_true_iff, negb_true_iff, !Z.leb_le. rewrite <- not_true_iff_false. unfold IMAX. split; [intros [_ ?]; split; [ints|assumption]|intros [_ ?]; split; [lia|assumption]]. }
  destruct (vec r) as [v|] eqn:E; [exact (S r v E R M)|]. specialize (Mi eq_refl). pose proof R as [Ra [Rb Rc]]. rewrite E in Rc.
  assert (Ex : forall x, 0 <= x -> (rmin r <= x <= rmax r <-> T x)) by (intros x Hx; rewrite <- (M x Hx (or_introl Rc)); unfold rin; rewrite E; tauto).
  destruct (Is_Empty r) eqn:Er.
  - apply empty_true in Er. eexists. split; [reflexivity|]. split; [split; [cbn; ints|split; [cbn; unfold IMAX; ints|exact Rc]]|]. intros x Hx _. rewrite <- (Ex x Hx). unfold rin. cbn. unfold IMAX in *. lia.
  - apply empty_false in Er. destruct (Z.leb_spec (rmin r) 0).
    + destruct (Z.leb_spec IMAX (rmax r)).
      * eexists. split; [reflexivity|]. split; [split; [cbn; ints|split; [cbn; ints|cbn; rewrite E; exact Rc]]|]. intros x Hx _. rewrite <- (Ex x Hx). unfold rin. cbn [rmin rmax vec Set_To_Empty]. rewrite E. ints.
      * eexists. split; [reflexivity|]. split; [split; [cbn; unfold IMAX in *; ints|split; [cbn; unfold IMAX; ints|exact Rc]]|]. intros x Hx _. rewrite <- (Ex x Hx). unfold rin. cbn. unfold IMAX in *. lia.
    + destruct (Z.leb_spec IMAX (rmax r)).
      * eexists. split; [reflexivity|]. split; [split; [cbn; ints|split; [cbn; ints|exact Rc]]|]. intros x Hx _. rewrite <- (Ex x Hx). unfold rin. cbn. unfold IMAX in *. lia.
      * destruct (sparse_copy_ok sz small junk r J R) as [s [v [S1 [S2 [S3 [S4 _]]]]]]. unfold sparse_copy in S1. rewrite E in S1. rewrite S1. cbn [bind]. exact (S s v S2 S3 (S4 T M)).
Qed.
End R.
