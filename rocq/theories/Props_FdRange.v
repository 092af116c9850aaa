(** Theorems about the ranges of the finite domain solver (C27, C28). *)
Require Import ZArith List Bool Lia Sorted.
Require Import Verif.Heap_Model Verif.FdRange_Model Verif.FdRange_Spec Verif.FdRange_Proofs Verif.FdRange_Set Verif.FdRange_Arith Verif.FdRange_Value.
Import ListNotations.
Open Scope Z_scope.

(** Vectors have any number [sz] of words such that their largest integer is below INTERVAL_MAX_INTEGER. *)
Notation small sz := (64 * Z.of_nat sz <= 2 ^ 28).
(** for the examples: vectors of two words (integers 0 to 127), {5,7}, {5,7,70} *)
Definition a0 := Around 0 [].
Definition v57 := [2 ^ 5 + 2 ^ 7; 0].
Definition v5770 := [2 ^ 5 + 2 ^ 7; 2 ^ 6].
Definition j0 := [2 ^ 3; 0].
Lemma small2 : small 2. Proof. cbn. lia. Qed.
Lemma a0_ok : around_ok a0. Proof. split; [cbn; lia|now left]. Qed.
Lemma vok2 x y : 0 <= x < 2 ^ 64 -> 0 <= y < 2 ^ 64 -> vok 2 [x; y].
Proof. intros A B. split; [reflexivity|repeat constructor; lia]. Qed.
Lemma j0_ok : vok 2 j0. Proof. apply vok2; lia. Qed.
Lemma rok_by e p q x y : 0 <= x < 2 ^ 64 -> 0 <= y < 2 ^ 64 -> Range_From_Vector a0 (Range e 0 0 (Some [x; y])) = Ret (Range e p q (Some [x; y])) -> rok 2 (Range e p q (Some [x; y])).
Proof.
  intros A B E. destruct (From_Vector_ok 2 small2 a0 e 0 0 [x; y] a0_ok (vok2 x y A B)) as [r' [F1 [_ [_ [F4 _]]]]]; [unfold INT_MIN, INT_MAX; lia|]. rewrite E in F1. injection F1 as <-. exact F4.
Qed.
Lemma rok57 e : rok 2 (Range e 5 7 (Some v57)). Proof. apply rok_by; [lia|lia|destruct e; reflexivity]. Qed.
Lemma rok5770 e : rok 2 (Range e 5 70 (Some v5770)). Proof. apply rok_by; [lia|lia|destruct e; reflexivity]. Qed.
Lemma rok_i sz p q : INT_MIN < p <= INT_MAX -> is_int q -> rok sz (Range_Interval p q).
Proof. intros A B. split; [exact A|]. split; [exact B|reflexivity]. Qed.
Ltac rng := unfold is_int, INT_MIN, INT_MAX; lia.
Lemma operand_rin sz r : rok sz r -> 0 <= rmin r <= rmax r -> operand sz r (rin r).
Proof. intros R L. split; [exact R|]. split; [lia|]. split; [intros n _ _; tauto|]. split; [intros n [H _]; lia|lia]. Qed.

(** * C27: sets *)
Theorem C27_test_value : forall sz r n, small sz -> rok sz r -> exists b, Range_Test_Value r n = Ret b /\ (b = true <-> rin r n).
Proof. intros sz r n S. now apply Test_Value_ok. Qed.
Example C27_test_value_ex : map (Range_Test_Value (Range false 5 70 (Some v5770))) [4; 5; 6; 7; 70; 71] = map Ret [false; true; false; true; true; false].
Proof. reflexivity. Qed.
Theorem C27_test_null_inter : forall sz r r1, small sz -> rok sz r -> rok sz r1 -> rmin r <= rmax r -> rmin r1 <= rmax r1 ->
  exists b, Range_Test_Null_Inter r r1 = Ret b /\ (b = true <-> ~ exists n, rin r n /\ rin r1 n).
Proof. intros sz r r1 S. now apply Test_Null_Inter_ok. Qed.
Example C27_test_null_inter_ex : let r := Range false 5 70 (Some v5770) in
  map (Range_Test_Null_Inter r) [Range_Interval 8 69; Range_Interval 6 7; Range_Interval 71 99; Range false 6 64 (Some [2 ^ 6; 1])] = map Ret [true; false; true; true] /\
  Range_Test_Null_Inter (Range_Interval 8 69) r = Ret true.
Proof. split; reflexivity. Qed.
(** without the hypothesis: an empty interval, as an intersection of intervals leaves it *)
Theorem C27_test_null_inter_empty_refuted : exists r r1, rok 2 r /\ rok 2 r1 /\ Range_Test_Null_Inter r r1 = Ret false /\ ~ exists n, rin r n.
Proof. exists (Range_Interval 5 3), (Range_Interval 2 6). split; [apply rok_i; rng|]. split; [apply rok_i; rng|]. split; [reflexivity|]. intros [n [H _]]. cbn in H. lia. Qed.
Theorem C27_nb_elem : forall sz r l, small sz -> rok sz r -> rmin r <= rmax r -> is_int (rmax r - rmin r + 1) -> listing r l -> Range_Nb_Elem r = Ret (Z.of_nat (length l)).
Proof. intros sz r l S. now apply Nb_Elem_ok. Qed.
Theorem C27_ith_elem : forall sz r l i, small sz -> rok sz r -> rmin r <= rmax r -> is_int (rmin r + i) -> is_int (rmin r + i - 1) -> listing r l ->
  Range_Ith_Elem r i = Ret (if 0 <? i then nth (Z.to_nat (i - 1)) l (-1) else -1).
Proof. intros sz r l i S. now apply Ith_Elem_ok. Qed.
Theorem C27_next_after : forall sz r n, small sz -> rok sz r -> rmin r <= rmax r -> is_int n ->
  exists x, Range_Next_After sz r n = Ret x /\ ((rin r x /\ n < x /\ forall m, rin r m -> n < m -> x <= m) \/ (x = -1 /\ forall m, rin r m -> m <= n)).
Proof. intros sz r n S. now apply Next_After_ok. Qed.
Theorem C27_next_before : forall sz r n, small sz -> rok sz r -> rmin r <= rmax r -> is_int n ->
  exists x, Range_Next_Before sz r n = Ret x /\ ((rin r x /\ x < n /\ forall m, rin r m -> m < n -> m <= x) \/ (x = -1 /\ forall m, rin r m -> n <= m)).
Proof. intros sz r n S. now apply Next_Before_ok. Qed.
Example C27_enum_ex : let r := Range false 5 70 (Some v5770) in listing r [5; 7; 70] /\ Range_Nb_Elem r = Ret 3 /\
  map (Range_Ith_Elem r) [0; 1; 3; 4] = map Ret [-1; 5; 70; -1] /\ map (Range_Next_After 2 r) [-3; 5; 7; 63; 70; 500] = map Ret [5; 7; 70; 70; -1; -1] /\ map (Range_Next_Before 2 r) [500; 70; 64; 6; 5; -3] = map Ret [70; 7; 7; 5; -1; -1].
Proof.
  cbv zeta. split; [|repeat split]. split; [repeat constructor; lia|]. intros n. rewrite (rok_rin 2 _ v5770 n (rok5770 false) eq_refl ltac:(cbn; lia)). rewrite <- (proj2 (enum_ok v5770)). reflexivity.
Qed.
(** Partial: no "empty but incomplete" range; an interval has something in 0..vmax. *)
Theorem C27_set_value_partial : forall sz junk a r n T, small sz -> vok sz junk -> around_ok a -> rok sz r -> is_int n -> n <> INT_MIN -> means sz r T -> rmax r < INT_MAX ->
  (rmax r < rmin r -> extra_cstr r = false) -> (vec r = None -> rmin r <= rmax r -> 0 <= rmax r /\ rmin r <= vmax sz) ->
  exists r', Range_Set_Value sz junk a r n = Ret r' /\ rok sz r' /\ means sz r' (fun x => x = n \/ T x).
Proof. intros sz junk a r n T S. now apply Set_Value_ok. Qed.
(** {5,7} and 70; 5..6 and 8; 5..7 and 8; {5,7} and 300, which does not fit *)
Example C27_set_value_ex : let s := Range_Set_Value 2 j0 a0 in
  s (Range false 5 7 (Some v57)) 70 = Ret (Range false 5 70 (Some v5770)) /\ s (Range_Interval 5 6) 8 = Ret (Range false 5 8 (Some [2 ^ 5 + 2 ^ 6 + 2 ^ 8; 0])) /\
  s (Range_Interval 5 7) 8 = Ret (Range_Interval 5 8) /\ s (Range false 5 7 (Some v57)) 300 = Ret (Range true 5 7 (Some v57)).
Proof. repeat split. Qed.
(** Adding 100 to 150..200 (vmax = 127) leaves in the range what the allocated vector contained (here 3). *)
Theorem C27_set_value_refuted : exists junk r n r', vok 2 junk /\ rok 2 r /\ Range_Set_Value 2 junk a0 r n = Ret r' /\ rin r' 3 /\ ~ (3 = n \/ rin r 3).
Proof.
  exists j0, (Range_Interval 150 200), 100. eexists. split; [exact j0_ok|]. split; [apply rok_i; rng|]. split; [vm_compute; reflexivity|]. split; [split; [cbn; lia|reflexivity]|]. intros [H|[H _]]; cbn in H; lia.
Qed.
(** An empty range marked as incomplete forgets that it is. *)
Theorem C27_set_value_empty_refuted : exists r n r' (T : Z -> Prop), rok 2 r /\ means 2 r T /\ Range_Set_Value 2 j0 a0 r n = Ret r' /\ ~ means 2 r' (fun x => x = n \/ T x).
Proof.
  exists (Range true 5 INT_MIN (Some v57)), 3. eexists. exists (fun x => x = 300). split; [split; [cbn; rng|split; [cbn; rng|split; [apply vok2; lia|cbn; unfold INT_MIN; lia]]]|]. split.
  - intros n Hn [H|H]; [discriminate|]. unfold vmax in H. split; [intros [X _]; cbn in X; lia|lia].
  - split; [reflexivity|]. intros M. specialize (M 300 ltac:(lia) (or_introl eq_refl)). destruct M as [_ M]. destruct (M (or_intror eq_refl)) as [X _]. cbn in X. lia.
Qed.
(** Partial: not a bound of the interval cut to 0..vmax. *)
Theorem C27_reset_value_partial : forall sz junk a r n T, small sz -> vok sz junk -> around_ok a -> rok sz r -> is_int n -> means sz r T ->
  (vec r = None -> ~ (rmin r < 0 /\ n = 0 /\ 0 < rmax r) /\ ~ (vmax sz < rmax r /\ n = vmax sz /\ rmin r < vmax sz)) ->
  exists r', Range_Reset_Value sz junk a r n = Ret r' /\ rok sz r' /\ means sz r' (fun x => x <> n /\ T x).
Proof. intros sz junk a r n T S. now apply Reset_Value_ok. Qed.
Example C27_reset_value_ex : let s := Range_Reset_Value 2 j0 a0 in
  s (Range false 5 70 (Some v5770)) 70 = Ret (Range false 5 7 (Some v57)) /\ s (Range_Interval 5 7) 6 = Ret (Range false 5 7 (Some v57)) /\
  s (Range_Interval 5 7) 7 = Ret (Range_Interval 5 6) /\ s (Range_Interval 5 200) 150 = Ret (Range true 5 127 (Some [2 ^ 64 - 2 ^ 5; 2 ^ 64 - 1])).
Proof. repeat split. Qed.
(** 127 is removed from 0..200 and is still there; the same for 0 in -5..10 *)
Theorem C27_reset_value_refuted : exists r r', rok 2 r /\ Range_Reset_Value 2 j0 a0 r (vmax 2) = Ret r' /\ Range_Test_Value r' (vmax 2) = Ret true.
Proof. exists (Range_Interval 0 200). eexists. split; [apply rok_i; rng|]. split; reflexivity. Qed.
Theorem C27_reset_zero_refuted : exists r r', rok 2 r /\ Range_Reset_Value 2 j0 a0 r 0 = Ret r' /\ Range_Test_Value r' 0 = Ret true.
Proof. exists (Range_Interval (-5) 10). eexists. split; [apply rok_i; rng|]. split; reflexivity. Qed.
Theorem C27_union : forall sz junk junk1 r r1 T T1, small sz -> vok sz junk -> vok sz junk1 -> rok sz r -> rok sz r1 -> means sz r T -> means sz r1 T1 -> rmax r < INT_MAX -> rmax r1 < INT_MAX ->
  exists r', Range_Union sz junk junk1 r r1 = Ret r' /\ rok sz r' /\ means sz r' (fun x => T x \/ T1 x).
Proof. intros sz junk junk1 r r1 T T1 S. now apply Union_ok. Qed.
Theorem C27_inter : forall sz junk a r r1 T T1, small sz -> vok sz junk -> around_ok a -> rok sz r -> rok sz r1 -> means sz r T -> means sz r1 T1 ->
  exists r', Range_Inter sz junk a r r1 = Ret r' /\ rok sz r' /\ means sz r' (fun x => T x /\ T1 x).
Proof. intros sz junk a r r1 T T1 S. now apply Inter_ok. Qed.
Theorem C27_compl : forall sz junk a r T, small sz -> vok sz junk -> around_ok a -> rok sz r -> (vec r = None -> rmin r <= IMAX) -> means sz r T ->
  exists r', Range_Compl sz junk a r = Ret r' /\ rok sz r' /\ means sz r' (fun x => x <= IMAX /\ ~ T x).
Proof. intros sz junk a r T S. now apply Compl_ok. Qed.
Example C27_sets_ex : Range_Union 2 j0 j0 (Range false 5 7 (Some v57)) (Range_Interval 70 70) = Ret (Range false 5 70 (Some v5770)) /\
  Range_Union 2 j0 j0 (Range_Interval 5 7) (Range_Interval 8 300) = Ret (Range_Interval 5 300) /\ Range_Union 2 j0 j0 (Range_Interval 5 5) (Range_Interval 127 300) = Ret (Range true 5 127 (Some [2 ^ 5; 2 ^ 63])) /\
  Range_Inter 2 j0 a0 (Range true 5 70 (Some v5770)) (Range_Interval 0 60) = Ret (Range false 5 7 (Some v57)) /\
  Range_Inter 2 j0 a0 (Range true 5 7 (Some v57)) (Range_Interval 6 6) = Ret (Range false 5 INT_MIN (Some [0; 0])) /\
  Range_Compl 2 j0 a0 (Range_Interval 0 7) = Ret (Range_Interval 8 IMAX) /\ Range_Compl 2 j0 a0 (Range_Interval 1 125) = Ret (Range true 0 127 (Some [1; 2 ^ 63 + 2 ^ 62])).
Proof. repeat split. Qed.
Example C27_hyps_ex : small 2 /\ vok 2 j0 /\ around_ok a0 /\ around_ok (Around 7 [0; 9]) /\ rok 2 (Range true 5 70 (Some v5770)) /\ rok 2 (Range_Interval 0 60) /\
  means 2 (Range true 5 70 (Some v5770)) (fun x => x = 5 \/ x = 7 \/ x = 70 \/ x = 300).
Proof.
  split; [exact small2|]. split; [exact j0_ok|]. split; [exact a0_ok|]. split; [split; [cbn; lia|]; right; exists [0], 9, []; split; [reflexivity|]; split; [repeat constructor|cbn; lia]|]. split; [apply rok5770|]. split; [apply rok_i; rng|].
  intros n Hn [H|H]; [discriminate|]. unfold vmax in H. rewrite (rok_rin 2 _ v5770 n (rok5770 true) eq_refl ltac:(cbn; lia)). rewrite <- (proj2 (enum_ok v5770)). cbn. lia.
Qed.
(** An empty result makes Pl_Range_From_Vector read outside the vector. *)
Theorem C27_from_vector_refuted : exists a r r1, rok 2 r /\ rok 2 r1 /\ Range_Inter 2 j0 a r r1 = UB.
Proof. exists (Around 1 []), (Range false 5 7 (Some v57)), (Range_Interval 6 6). split; [apply rok57|]. split; [apply rok_i; rng|reflexivity]. Qed.

(** * C28: arithmetic *)
Theorem C28_add_range : forall sz junk a r r1 T T1, small sz -> vok sz junk -> around_ok a -> operand sz r T -> operand sz r1 T1 -> is_int (rmax r + rmax r1) ->
  (vec r <> None \/ vec r1 <> None -> rmin r <= vmax sz /\ rmin r1 <= vmax sz) ->
  exists r', Range_Add_Range sz junk a r r1 = Ret r' /\ rok sz r' /\ means sz r' (lift Z.add T T1).
Proof. intros sz junk a r r1 T T1 S. now apply Add_Range_ok. Qed.
Theorem C28_sub_range : forall sz junk a r r1 T T1, small sz -> vok sz junk -> around_ok a -> operand sz r T -> operand sz r1 T1 ->
  (vec r <> None \/ vec r1 <> None -> rmin r <= vmax sz /\ rmin r1 <= vmax sz) ->
  exists r', Range_Sub_Range sz junk a r r1 = Ret r' /\ rok sz r' /\ covers r' (lift Z.sub T T1).
Proof. intros sz junk a r r1 T T1 S. now apply Sub_Range_ok. Qed.
(** between intervals, for all integers *)
Theorem C28_add_intervals : forall sz junk a e e1 p q p1 q1, p <= q -> p1 <= q1 -> is_int (p + p1) -> is_int (q + q1) ->
  exists r', Range_Add_Range sz junk a (Range e p q None) (Range e1 p1 q1 None) = Ret r' /\ forall n, rin r' n <-> exists x y, p <= x <= q /\ p1 <= y <= q1 /\ n = x + y.
Proof. intros. now apply Add_Intervals_ok. Qed.
Theorem C28_sub_intervals : forall sz junk a e e1 p q p1 q1, p <= q -> p1 <= q1 -> is_int (p - q1) -> is_int (q - p1) ->
  exists r', Range_Sub_Range sz junk a (Range e p q None) (Range e1 p1 q1 None) = Ret r' /\ forall n, rin r' n <-> exists x y, p <= x <= q /\ p1 <= y <= q1 /\ n = x - y.
Proof. intros. now apply Sub_Intervals_ok. Qed.
Example C28_add_ex : Range_Add_Range 2 j0 a0 (Range false 5 7 (Some v57)) (Range_Interval 0 1) = Ret (Range false 5 8 (Some [2 ^ 5 + 2 ^ 6 + 2 ^ 7 + 2 ^ 8; 0])) /\
  Range_Add_Range 2 j0 a0 (Range false 5 70 (Some v5770)) (Range false 5 70 (Some v5770)) = Ret (Range true 10 77 (Some [2 ^ 10 + 2 ^ 12 + 2 ^ 14; 2 ^ 11 + 2 ^ 13])) /\
  Range_Sub_Range 2 j0 a0 (Range false 5 70 (Some v5770)) (Range_Interval 6 6) = Ret (Range false 1 64 (Some [2; 1])) /\
  Range_Add_Range 2 j0 a0 (Range_Interval (-3) 4) (Range_Interval 1 2) = Ret (Range_Interval (-2) 6) /\ Range_Sub_Range 2 j0 a0 (Range_Interval (-3) 4) (Range_Interval 1 2) = Ret (Range_Interval (-5) 3).
Proof. repeat split. Qed.
Example C28_hyps_ex : operand 2 (Range false 5 70 (Some v5770)) (rin (Range false 5 70 (Some v5770))) /\ operand 2 (Range_Interval 6 200) (rin (Range_Interval 6 200)) /\ 5 <= vmax 2 /\ 6 <= vmax 2.
Proof. split; [apply operand_rin; [apply rok5770|cbn; lia]|]. split; [apply operand_rin; [apply rok_i; rng|cbn; lia]|unfold vmax; lia]. Qed.
(** Partial: nothing is said when products above vmax are lost, and vmax * vmax must be an int. *)
Theorem C28_mul_range_partial : forall sz junk junk1 a r r1 T T1, small sz -> vok sz junk -> vok sz junk1 -> around_ok a -> operand sz r T -> operand sz r1 T1 ->
  (rmin r <= rmax r -> rmin r1 <= rmax r1 -> rmin r <= vmax sz /\ rmin r1 <= vmax sz) -> is_int (vmax sz * vmax sz) ->
  exists r', Range_Mul_Range sz junk junk1 a r r1 = Ret r' /\ rok sz r' /\ (forall n, 0 <= n <= vmax sz -> (rin r' n <-> lift Z.mul T T1 n)) /\ forall n, vmax sz < n -> ~ rin r' n.
Proof. intros sz junk junk1 a r r1 T T1 S. now apply Mul_Range_ok. Qed.
Theorem C28_mul_range_refuted : exists r r1 r', operand 2 r (rin r) /\ operand 2 r1 (rin r1) /\ Range_Mul_Range 2 j0 j0 a0 r r1 = Ret r' /\ extra_cstr r' = false /\ lift Z.mul (rin r) (rin r1) 200 /\ ~ rin r' 200.
Proof.
  exists (Range_Interval 10 10), (Range_Interval 1 20). eexists. split; [apply operand_rin; [apply rok_i; rng|cbn; lia]|]. split; [apply operand_rin; [apply rok_i; rng|cbn; lia]|]. split; [vm_compute; reflexivity|]. split; [reflexivity|]. split.
  - exists 10, 20. unfold rin. cbn. lia.
  - intros [X _]. cbn in X. lia.
Qed.
(** 63999 * 63999 is not an int *)
Theorem C28_mul_overflow_refuted : exists sz r junk, small sz /\ vok sz junk /\ operand sz r (rin r) /\ rmin r <= vmax sz /\ Range_Mul_Range sz junk junk a0 r r = UB.
Proof.
  exists 1000%nat, (Range_Interval 63999 63999), (repeat 0 1000). split; [lia|]. split; [split; [apply repeat_length|apply repeat_forall; lia]|]. split; [apply operand_rin; [apply rok_i; rng|cbn; lia]|]. split; [unfold vmax; cbn; lia|vm_compute; reflexivity].
Qed.
Theorem C28_div_range : forall sz junk junk1 a r r1 T T1, small sz -> vok sz junk -> vok sz junk1 -> around_ok a -> operand sz r T -> operand sz r1 T1 ->
  (rmin r <= rmax r -> rmin r1 <= rmax r1 -> rmin r <= vmax sz /\ rmin r1 <= vmax sz) ->
  exists r', Range_Div_Range sz junk junk1 a r r1 = Ret r' /\ rok sz r' /\ covers r' (quotients T T1).
Proof. intros sz junk junk1 a r r1 T T1 S. now apply Div_Range_ok. Qed.
Theorem C28_mod_range : forall sz junk junk1 a r r1 T T1, small sz -> vok sz junk -> vok sz junk1 -> around_ok a -> operand sz r T -> operand sz r1 T1 ->
  (rmin r <= rmax r -> rmin r1 <= rmax r1 -> rmin r <= vmax sz /\ rmin r1 <= vmax sz) ->
  exists r', Range_Mod_Range sz junk junk1 a r r1 = Ret r' /\ rok sz r' /\ covers r' (remainders T T1).
Proof. intros sz junk junk1 a r r1 T T1 S. now apply Mod_Range_ok. Qed.
Example C28_mul_ex : Range_Mul_Range 2 j0 j0 a0 (Range false 5 7 (Some v57)) (Range_Interval 1 2) = Ret (Range false 5 14 (Some [2 ^ 5 + 2 ^ 7 + 2 ^ 10 + 2 ^ 14; 0])) /\
  Range_Div_Range 2 j0 j0 a0 (Range false 5 70 (Some v5770)) (Range_Interval 5 7) = Ret (Range false 1 14 (Some [2 + 2 ^ 10 + 2 ^ 14; 0])) /\
  Range_Mod_Range 2 j0 j0 a0 (Range false 5 70 (Some v5770)) (Range_Interval 4 6) = Ret (Range false 0 5 (Some [1 + 2 + 4 + 8 + 16 + 32; 0])).
Proof. repeat split. Qed.
(** The hypotheses about the operands: negative members are lost without a mark, and an interval
    above vmax is read as whatever the allocated vector contained. *)
Theorem C28_negative_refuted : exists r r1 r', rok 2 r /\ rok 2 r1 /\ Range_Add_Range 2 j0 a0 r r1 = Ret r' /\ extra_cstr r' = false /\ lift Z.add (rin r) (rin r1) 3 /\ ~ rin r' 3.
Proof.
  exists (Range_Interval (-5) 1), (Range false 5 7 (Some v57)). eexists. split; [apply rok_i; rng|]. split; [apply rok57|]. split; [vm_compute; reflexivity|]. split; [reflexivity|]. split.
  - exists (-2), 5. split; [unfold rin; cbn; lia|]. split; [split; [cbn; lia|reflexivity]|reflexivity].
  - intros [X _]. cbn in X. lia.
Qed.
Theorem C28_beyond_refuted : exists junk r r1 r', vok 2 junk /\ operand 2 r (rin r) /\ operand 2 r1 (rin r1) /\ Range_Add_Range 2 junk a0 r r1 = Ret r' /\ rin r' 8 /\ ~ lift Z.add (rin r) (rin r1) 8.
Proof.
  exists j0, (Range_Interval 150 200), (Range false 5 7 (Some v57)). eexists. split; [exact j0_ok|]. split; [apply operand_rin; [apply rok_i; rng|cbn; lia]|]. split; [apply operand_rin; [apply rok57|cbn; lia]|]. split; [vm_compute; reflexivity|]. split; [split; [cbn; lia|reflexivity]|].
  intros [x [y [[X _] [[Y _] Q]]]]. cbn in X, Y. lia.
Qed.
Theorem C28_add_value : forall sz a r n T, small sz -> around_ok a -> operand sz r T -> INT_MIN < n <= INT_MAX -> INT_MIN < rmin r + n -> is_int (rmax r + n) ->
  exists r', Range_Add_Value sz a r n = Ret r' /\ rok sz r' /\ covers r' (fun x => T (x - n)) /\ (0 <= n -> means sz r' (fun x => T (x - n))).
Proof. intros sz a r n T S. now apply Add_Value_ok. Qed.
Theorem C28_mul_value : forall sz junk a r n T, small sz -> vok sz junk -> around_ok a -> operand sz r T -> 0 <= n -> (rmin r <= rmax r -> rmin r <= vmax sz) -> is_int (rmax r * n) ->
  exists r', Range_Mul_Value sz junk a r n = Ret r' /\ rok sz r' /\ means sz r' (fun x => exists y, T y /\ x = y * n).
Proof. intros sz junk a r n T S. now apply Mul_Value_ok. Qed.
Example C28_value_ex : Range_Add_Value 2 a0 (Range false 5 70 (Some v5770)) 60 = Ret (Range true 65 67 (Some [0; 2 ^ 1 + 2 ^ 3])) /\ Range_Add_Value 2 a0 (Range false 5 70 (Some v5770)) (-6) = Ret (Range false 1 64 (Some [2; 1])) /\
  Range_Mul_Value 2 j0 a0 (Range false 5 70 (Some v5770)) 2 = Ret (Range true 10 14 (Some [2 ^ 10 + 2 ^ 14; 0])) /\ Range_Mul_Value 2 j0 a0 (Range_Interval 3 4) 20 = Ret (Range false 60 80 (Some [2 ^ 60; 2 ^ 16])) /\
  Range_Div_Value 2 j0 a0 (Range_Interval 5 10) 3 = Ret (Range false 2 3 (Some [4 + 8; 0])) /\ Range_Mod_Value 2 j0 j0 a0 (Range false 5 70 (Some v5770)) 4 = Ret (Range false 1 3 (Some [2 + 4 + 8; 0])) /\
  Range_Mod_Value 2 j0 j0 a0 (Range_Interval 9 11) 10 = Ret (Range false 0 9 (Some [1 + 2 + 2 ^ 9; 0])).
Proof. repeat split. Qed.
(** Partial: a vector without lost values has bounds which are multiples of n *)
Theorem C28_div_value_partial : forall sz junk a r n T, small sz -> vok sz junk -> around_ok a -> operand sz r T -> 1 <= n <= INT_MAX -> (rmin r <= rmax r -> rmin r <= vmax sz) -> is_int (vmax sz + n) ->
  (forall v, vec r = Some v -> extra_cstr r = false -> (n | rmin r) /\ (n | rmax r)) ->
  exists r', Range_Div_Value sz junk a r n = Ret r' /\ rok sz r' /\ covers r' (fun x => T (n * x)).
Proof. intros sz junk a r n T S. now apply Div_Value_ok. Qed.
(** {5,7} divided by 3: 2, which is not a quotient *)
Theorem C28_div_value_refuted : exists r n r', operand 2 r (rin r) /\ Range_Div_Value 2 j0 a0 r n = Ret r' /\ Range_Test_Value r' 2 = Ret true /\ ~ rin r (n * 2).
Proof.
  exists (Range false 5 7 (Some v57)), 3. eexists. split; [apply operand_rin; [apply rok57|cbn; lia]|]. split; [vm_compute; reflexivity|]. split; [reflexivity|]. intros [_ X]. discriminate.
Qed.
(** division by zero; a negative divisor or factor: an access outside of the vector, a wrong set *)
Theorem C28_div_zero_refuted : exists r, operand 2 r (rin r) /\ Range_Div_Value 2 j0 a0 r 0 = UB /\ Range_Div_Value 2 j0 a0 r (-5) = UB.
Proof. exists (Range false 5 7 (Some v57)). split; [apply operand_rin; [apply rok57|cbn; lia]|split; reflexivity]. Qed.
Theorem C28_mul_value_refuted : exists r r', operand 2 r (rin r) /\ Range_Mul_Value 2 j0 a0 r (-1) = Ret r' /\ extra_cstr r' = false /\ Range_Test_Value r' (-7) = Ret false.
Proof. exists (Range false 5 7 (Some v57)). eexists. split; [apply operand_rin; [apply rok57|cbn; lia]|]. split; [reflexivity|split; reflexivity]. Qed.
Theorem C28_mod_value_sparse : forall sz junk junk1 a r n v T, small sz -> around_ok a -> operand sz r T -> vec r = Some v -> INT_MIN < n <= INT_MAX -> n <> 0 ->
  exists r', Range_Mod_Value sz junk junk1 a r n = Ret r' /\ rok sz r' /\ covers r' (fun x => exists y, T y /\ x = Z.rem y n).
Proof. intros sz junk junk1 a r n v T S. now apply Mod_Value_sparse_ok. Qed.
Theorem C28_mod_value_interval : forall sz junk junk1 a r n, small sz -> vok sz junk -> vok sz junk1 -> rok sz r -> vec r = None -> INT_MIN < n <= INT_MAX -> n <> 0 -> is_int (rmax r - rmin r + 1) ->
  exists r', Range_Mod_Value sz junk junk1 a r n = Ret r' /\ rok sz r' /\ means sz r' (fun x => exists y, rmin r <= y <= rmax r /\ x = Z.rem y n).
Proof. intros sz junk junk1 a r n S. now apply Mod_Value_interval_ok. Qed.
Print Assumptions C27_test_value.
Print Assumptions C27_test_null_inter.
Print Assumptions C27_test_null_inter_empty_refuted.
Print Assumptions C27_nb_elem.
Print Assumptions C27_ith_elem.
Print Assumptions C27_next_after.
Print Assumptions C27_next_before.
Print Assumptions C27_set_value_partial.
Print Assumptions C27_set_value_refuted.
Print Assumptions C27_set_value_empty_refuted.
Print Assumptions C27_reset_value_partial.
Print Assumptions C27_reset_value_refuted.
Print Assumptions C27_reset_zero_refuted.
Print Assumptions C27_union.
Print Assumptions C27_inter.
Print Assumptions C27_compl.
Print Assumptions C27_from_vector_refuted.
Print Assumptions C28_add_range.
Print Assumptions C28_sub_range.
Print Assumptions C28_add_intervals.
Print Assumptions C28_sub_intervals.
Print Assumptions C28_mul_range_partial.
Print Assumptions C28_mul_range_refuted.
Print Assumptions C28_mul_overflow_refuted.
Print Assumptions C28_div_range.
Print Assumptions C28_mod_range.
Print Assumptions C28_negative_refuted.
Print Assumptions C28_beyond_refuted.
Print Assumptions C28_add_value.
Print Assumptions C28_mul_value.
Print Assumptions C28_div_value_partial.
Print Assumptions C28_div_value_refuted.
Print Assumptions C28_div_zero_refuted.
Print Assumptions C28_mul_value_refuted.
Print Assumptions C28_mod_value_sparse.
Print Assumptions C28_mod_value_interval.
