(** Theorems about the tables used to choose a clause (C44) and about clause indexing (C53). *)
Require Import ZArith List Bool Lia Permutation.
Require Import Verif.Heap_Model Verif.Switch_Model Verif.Switch_Proofs Verif.Index_Model Verif.Index_Proofs.
Import ListNotations.
Open Scope Z_scope.

(** * C44: a table gives the code registered for the key *)
(** atoms and structures; keys are not negative: an atom is an index, a functor word is an
    atom and an arity *)
Theorem C44_hash :
  forall l k, NoDup (map fst l) -> Z.of_nat (length l) < 2 ^ 31 -> (forall k c, In (k, c) l -> 0 <= k /\ c <> 0) -> 0 <= k ->
  exists r, Switch_On l k = Ret r /\ forall c, r = Some c <-> In (k, c) l.
Proof.
  intros l k ND Len Hl Hk. exists (assoc l k). split; [now apply Switch_On_ok|]. intros c. split; [apply assoc_some|now apply assoc_in].
Qed.
(** three keys in the same bucket *)
Example C44_hash_ex : Switch_On [(3, 10); (7, 20); (11, 30)] 11 = Ret (Some 30) /\ Switch_On [(3, 10); (7, 20); (11, 30)] 15 = Ret None.
Proof. vm_compute. auto. Qed.

(** Integers, partial: the keys are between -2^30 and 2^30 - 1 (any integer may be looked up).
    [l'] is what qsort makes of the cases. *)
Theorem C44_integer_partial :
  forall l l' k, l <> [] -> NoDup (map fst l) -> (forall k c, In (k, c) l -> - 2 ^ 30 <= k < 2 ^ 30) ->
  qsorted Switch_Cmp_Int (switch_cases l) l' -> exists r, Switch_Ret l' k = Ret r /\ forall c, r = Some c <-> In (k, c) l.
Proof.
  intros l l' k Nl ND Hl Q. exists (assoc l k). split; [now apply Switch_Ret_ok|]. intros c. split; [apply assoc_some|now apply assoc_in].
Qed.
Example C44_integer_ex : let l := [(9, 1); (-4, 2); (100, 3); (7, 4); (0, 5)] in let l' := [(-4, 2); (0, 5); (7, 4); (9, 1); (100, 3)] in
  qsorted Switch_Cmp_Int (switch_cases l) l' /\ Switch_Ret l' (-4) = Ret (Some 2) /\ Switch_Ret l' 8 = Ret None.
Proof.
  cbv zeta. split; [split|split; reflexivity].
  - change (switch_cases _) with [(9, 1); (-4, 2); (100, 3); (7, 4); (0, 5)].
    apply Permutation_sym. apply Permutation_trans with (l' := [(-4, 2); (9, 1); (100, 3); (7, 4); (0, 5)]); [apply perm_skip|apply perm_swap].
    apply Permutation_trans with (l' := [(0, 5); (9, 1); (100, 3); (7, 4)]); [apply perm_skip|apply Permutation_cons_append].
    apply Permutation_trans with (l' := [(7, 4); (9, 1); (100, 3)]); [apply Permutation_refl|apply (Permutation_cons_append [(9, 1); (100, 3)])].
  - intros _ i j R. cbn [length] in R. do 5 (destruct i as [|i]; [do 5 (destruct j as [|j]; [try lia; vm_compute; discriminate|]); lia|]). lia.
Qed.

(** Counterexample: the comparison subtracts and keeps 32 bits.  With these keys it is even a
    consistent order, so that every qsort gives the same result, in which the binary search
    does not find the last key. *)
Definition wide : list (Z * Z) := [(1500000000, 1); (1600000000, 2); (2000000000, 3); (-2000000000, 4)].
Lemma wide_sorted l l' : Permutation wide l -> qsorted Switch_Cmp_Int l l' -> l' = wide.
Proof.
  intros Pw [Pm Srt]. assert (Hw : forall x, In x l -> In x wide) by (intros x; apply Permutation_in; now symmetry).
  assert (C : consistent Switch_Cmp_Int l).
  { split.
    - intros a b Ia Ib. apply Hw in Ia, Ib. cbn [wide In] in Ia, Ib. decompose [or] Ia; decompose [or] Ib; subst; try contradiction; reflexivity.
    - intros a b c Ia Ib Ic. apply Hw in Ia, Ib, Ic. cbn [wide In] in Ia, Ib, Ic. decompose [or] Ia; decompose [or] Ib; decompose [or] Ic; subst; try contradiction; vm_compute; intuition congruence. }
  specialize (Srt C). apply (Permutation_trans Pw) in Pm. assert (Hi : forall x, In x l' -> In x wide) by (intros x; apply Permutation_in; now symmetry).
  assert (ND : NoDup (map fst l')).
  { eapply Permutation_NoDup; [apply Permutation_map; exact Pm|]. cbn. repeat constructor; cbn; intuition congruence. }
  assert (Len := Permutation_length Pm). cbn [wide length] in Len.
  destruct l' as [|a [|b [|c [|d [|]]]]]; try discriminate. clear Len Pm C.
  assert (Ia := Hi a (or_introl eq_refl)). assert (Ib := Hi b (or_intror (or_introl eq_refl))). assert (Ic := Hi c (or_intror (or_intror (or_introl eq_refl)))).
  assert (Id := Hi d (or_intror (or_intror (or_intror (or_introl eq_refl))))). clear Hi.
  assert (S01 := Srt 0%nat 1%nat ltac:(cbn; lia)). assert (S12 := Srt 1%nat 2%nat ltac:(cbn; lia)). assert (S23 := Srt 2%nat 3%nat ltac:(cbn; lia)). clear Srt. cbn [nth] in S01, S12, S23.
  inversion ND as [|? ? Na ND1]; subst. inversion ND1 as [|? ? Nb ND2]; subst. inversion ND2 as [|? ? Nc _]; subst. cbn [In map] in Na, Nb, Nc. clear ND ND1 ND2.
  assert (Na' : a <> b) by (intros ->; tauto). assert (Nb' : b <> c) by (intros ->; tauto). assert (Nc' : c <> d) by (intros ->; tauto). clear Na Nb Nc.
  cbn [wide In] in Ia, Ib, Ic, Id. unfold wide.
  decompose [or] Ia; decompose [or] Ib; subst; try contradiction; try (exfalso; apply S01; reflexivity);
  decompose [or] Ic; subst; try contradiction; try (exfalso; apply S12; reflexivity);
  decompose [or] Id; subst; try contradiction; try (exfalso; apply S23; reflexivity); reflexivity.
Qed.
Theorem C44_integer_sort_refuted :
  exists l k c, NoDup (map fst l) /\ (forall k c, In (k, c) l -> - 2 ^ 31 <= k < 2 ^ 31) /\ In (k, c) l /\
  (exists l', qsorted Switch_Cmp_Int (switch_cases l) l') /\
  forall l', qsorted Switch_Cmp_Int (switch_cases l) l' -> Switch_Ret l' k = Ret None.
Proof.
  exists wide, (-2000000000), 4. split; [cbn; repeat constructor; cbn; intuition congruence|].
  split; [intros k c I; cbn [wide In] in I; decompose [or] I; try contradiction; match goal with H : _ = _ |- _ => inversion H end; lia|].
  split; [cbn; tauto|]. split.
  - exists wide. split; [apply Permutation_refl|]. intros _ i j R. cbn [wide length] in R. do 4 (destruct i as [|i]; [do 4 (destruct j as [|j]; [try lia; vm_compute; discriminate|]); lia|]). lia.
  - intros l' Q. rewrite (wide_sorted wide l' (Permutation_refl _) Q). reflexivity.
Qed.
(** Counterexample: a case is read into a PlLong, but as an int; 2^32 + 5 is never found (5
    would be confused with it) *)
Theorem C44_integer_64bit_refuted :
  exists l k c, NoDup (map fst l) /\ In (k, c) l /\ (exists l', qsorted Switch_Cmp_Int (switch_cases l) l') /\
  forall l', qsorted Switch_Cmp_Int (switch_cases l) l' -> Switch_Ret l' k = Ret None.
Proof.
  exists [(2 ^ 32 + 5, 1); (5, 2)], (2 ^ 32 + 5), 1. split; [repeat constructor; cbn; intuition congruence|]. split; [now left|]. split.
  - exists [(5, 1); (5, 2)]. split; [apply Permutation_refl|]. intros _ i j R. cbn [length] in R. do 2 (destruct i as [|i]; [do 2 (destruct j as [|j]; [try lia; vm_compute; discriminate|]); lia|]). lia.
  - intros l' [Pm _]. change (switch_cases _) with [(5, 1); (5, 2)] in Pm. assert (Len := Permutation_length Pm). cbn [length] in Len. destruct l' as [|[a x] [|[b y] [|]]]; try discriminate.
    assert (a = 5). { assert (I : In (a, x) [(5, 1); (5, 2)]) by (apply (Permutation_in _ (Permutation_sym Pm)); now left). cbn in I. decompose [or] I; try contradiction; congruence. }
    assert (b = 5). { assert (I : In (b, y) [(5, 1); (5, 2)]) by (apply (Permutation_in _ (Permutation_sym Pm)); right; now left). cbn in I. decompose [or] I; try contradiction; congruence. }
    subst. reflexivity.
Qed.
(** Counterexample, when SWT_INT_DICHOTOMY is not defined: integers are hashed by the
    remainder of C, negative for a negative key; the table is accessed before its start *)
Theorem C44_negative_hash_refuted : exists l k, NoDup (map fst l) /\ (forall k c, In (k, c) l -> c <> 0) /\ In k (map fst l) /\ Switch_On l k = UB.
Proof.
  exists [(1, 7); (-1, 8)], (-1). split; [repeat constructor; cbn; intuition congruence|]. split; [|split; [right; now left|reflexivity]].
  intros k c [E|[E|[]]]; inversion E; discriminate.
Qed.

(** * C53: clause indexing only skips clauses that cannot match *)
(** [leb] is the standard order on keys, [perm] what sort/1 does to the list of groups, [qs]
    is qsort.  When every clause fails, the code enters clauses in the order of the source,
    each at most once, and all those whose first argument can match [a] ([tried]).  It never
    goes wrong (no jump to a missing label, no retry without a choice point).

    Partial: integers of clauses between -2^30 and 2^30 - 1, see the counterexamples. *)
Definition total_order (leb : Z -> Z -> bool) : Prop :=
  (forall x y, leb x y = true \/ leb y x = true) /\ (forall x y, leb x y = true -> leb y x = true -> x = y) /\
  (forall x y z, leb x y = true -> leb y z = true -> leb x z = true).
Lemma index_run leb perm qs (l : list clause) a : total_order leb -> (forall g, Permutation (perm g) g) -> (forall l, qsorted Switch_Cmp_Int l (qs l)) ->
  NoDup (map fst l) -> (forall ad f, In (ad, f) l -> 1 <= ad <= Z.of_nat (length l) /\ wf_farg f) -> wf_arg a -> Z.of_nat (length l) < 2 ^ 31 ->
  exists prog f0 evs, indexing leb perm l = Some prog /\ (forall f, (f0 <= f)%nat -> exec qs prog a f prog [] = Ret evs) /\ tried a l (map fst evs) /\
    (Forall (fun c => snd c <> FVar) l -> evs = evl 0 (map fst evs)).
Proof.
  intros [L1 [L2 L3]] Hp Hq ND Hl Wa Len. unfold indexing. pose proof (indexing1_some leb perm (S (length l)) l false (Z.of_nat (length l) + 1) (Nat.lt_succ_diag_r _)) as Sm.
  destruct (indexing1 leb perm (S (length l)) l false (Z.of_nat (length l) + 1)) as [[[lab c] n']|] eqn:E; [clear Sm|congruence].
  destruct (indexing1_next leb perm _ _ _ _ _ _ _ E) as [-> [_ [c0 ->]]].
  assert (Hads : forall ad, In ad (map fst l) -> 1 <= ad <= Z.of_nat (length l)). { intros ad I. apply in_map_iff in I as [[ad0 f] [<- I]]. exact (proj1 (Hl _ _ I)). }
  assert (Lab := indexing1_lab leb perm _ _ _ _ _ _ _ E ND ltac:(intros ad I; apply Hads in I; lia)). destruct Lab as [_ [NDl _]]. cbn [labels flat_map app] in NDl. apply NoDup_cons_iff in NDl as [_ NDl].
  destruct (indexing1_ok qs c0 a NDl Hq Wa leb L1 L2 L3 perm Hp _ _ _ _ _ _ _ _ [] [] [] [] E) as [evs [T [[f0 X] D]]].
  - lia.
  - intros ad f I. destruct (Hl _ _ I). split; [lia|assumption].
  - exact Len.
  - exists []. now rewrite app_nil_r.
  - reflexivity.
  - rewrite !app_nil_r in X. exists c0, f0, evs. split; [reflexivity|]. split; [|split; [exact T|exact D]]. intros f Hf. exact (exec_mono _ _ _ _ _ _ _ X f Hf).
Qed.
Theorem C53_indexing_partial :
  forall leb perm qs (l : list clause) a, total_order leb -> (forall g, Permutation (perm g) g) -> (forall l, qsorted Switch_Cmp_Int l (qs l)) ->
  NoDup (map fst l) -> (forall ad f, In (ad, f) l -> 1 <= ad <= Z.of_nat (length l) /\ wf_farg f) -> wf_arg a -> Z.of_nat (length l) < 2 ^ 31 ->
  exists prog f0 evs, indexing leb perm l = Some prog /\ (forall f, (f0 <= f)%nat -> exec qs prog a f prog [] = Ret evs) /\ tried a l (map fst evs).
Proof.
  intros leb perm qs l a L Hp Hq ND Hl Wa Len. destruct (index_run leb perm qs l a L Hp Hq ND Hl Wa Len) as [prog [f0 [evs [E [X [T _]]]]]]. exists prog, f0, evs. auto.
Qed.
(** When no clause has a variable there, the last clause entered is entered without a choice
    point, the others with exactly one: no choice point is left over. *)
Theorem C53_determinism_partial :
  forall leb perm qs (l : list clause) a, total_order leb -> (forall g, Permutation (perm g) g) -> (forall l, qsorted Switch_Cmp_Int l (qs l)) ->
  NoDup (map fst l) -> (forall ad f, In (ad, f) l -> 1 <= ad <= Z.of_nat (length l) /\ wf_farg f) -> wf_arg a -> Z.of_nat (length l) < 2 ^ 31 ->
  (forall ad f, In (ad, f) l -> f <> FVar) ->
  exists prog f0 s, indexing leb perm l = Some prog /\
    (forall f, (f0 <= f)%nat -> exec qs prog a f prog [] = Ret (combine s (repeat 1 (length s - 1) ++ [0]))) /\ tried a l s.
Proof.
  intros leb perm qs l a L Hp Hq ND Hl Wa Len Nv. destruct (index_run leb perm qs l a L Hp Hq ND Hl Wa Len) as [prog [f0 [evs [E [X [T D]]]]]]. exists prog, f0, (map fst evs). split; [exact E|]. split; [|exact T].
  assert (Hd : evs = evl 0 (map fst evs)) by (apply D; apply Forall_forall; intros [ad f] I; exact (Nv _ _ I)).
  assert (G : forall s, evl 0 s = combine s (repeat 1 (length s - 1) ++ [0])).
  { induction s as [|x [|y s] IH]; [reflexivity|reflexivity|]. change (evl 0 (x :: y :: s)) with ((x, 0 + 1) :: evl 0 (y :: s)). rewrite IH. cbn. now rewrite !Nat.sub_0_r. }
  rewrite <- G, <- Hd. exact X.
Qed.
(** p(a). p(1). p([_|_]). p(X). p(f(_)). p(a). p(b). *)
Definition ex_clauses : list clause := [(1, FAtm 100); (2, FInt 1); (3, FLst); (4, FVar); (5, FStc 300); (6, FAtm 100); (7, FAtm 101)].
Definition isort_ex (l : list (Z * Z)) := ksort Z.leb l.
Definition run_ex (a : arg0) := match indexing Z.leb (fun g => g) ex_clauses with Some prog => exec isort_ex prog a 30 prog [] | None => NoFuel end.
Example C53_ex : run_ex ARef = Ret [(1, 2); (2, 2); (3, 1); (4, 1); (5, 1); (6, 1); (7, 0)] /\ run_ex (AAtm 100) = Ret [(1, 1); (4, 1); (6, 0)] /\
  run_ex (AAtm 5) = Ret [(1, 1); (4, 1)] /\ run_ex ALst = Ret [(3, 1); (4, 1)] /\ run_ex (AStc 300) = Ret [(4, 1); (5, 0)] /\ run_ex (AInt 1) = Ret [(2, 1); (4, 1)].
Proof. vm_compute. repeat split; reflexivity. Qed.
Example C53_hyp_ex : total_order Z.leb /\ NoDup (map fst ex_clauses) /\ (forall ad f, In (ad, f) ex_clauses -> 1 <= ad <= Z.of_nat (length ex_clauses) /\ wf_farg f).
Proof.
  split; [split; [|split]; intros; rewrite ?Z.leb_le in *; lia|]. split; [cbn; repeat constructor; cbn; intuition congruence|].
  intros ad f I. cbn [ex_clauses In] in I. decompose [or] I; try contradiction; match goal with H : _ = _ |- _ => inversion H end; cbn; lia.
Qed.
(** Counterexample: p(1500000000). p(1600000000). p(2000000000). p(-2000000000).  The call
    p(-2000000000) fails at once. *)
Theorem C53_large_integer_refuted :
  exists l k prog, indexing Z.leb (fun g => g) l = Some prog /\ In k (map snd l) /\ k = FInt (-2000000000) /\
  forall qs, (forall l, qsorted Switch_Cmp_Int l (qs l)) -> forall f, (2 <= f)%nat -> exec qs prog (AInt (-2000000000)) (S f) prog [] = Ret [].
Proof.
  exists [(1, FInt 1500000000); (2, FInt 1600000000); (3, FInt 2000000000); (4, FInt (-2000000000))], (FInt (-2000000000)).
  eexists. split; [vm_compute; reflexivity|]. split; [right; right; right; now left|]. split; [reflexivity|]. intros qs Hq f Hf.
  destruct f as [|[|f]]; [lia|lia|]. cbn [exec Switch_On_Term negb andb Z.eqb Pos.eqb find_lab].
  match goal with |- context [switch_cases ?t] => assert (Pm : Permutation wide (switch_cases t)) by (change (switch_cases t) with ((-2000000000, 4) :: [(1500000000, 1); (1600000000, 2); (2000000000, 3)]); symmetry; apply Permutation_cons_append);
    rewrite (wide_sorted _ _ Pm (Hq _)) end. reflexivity.
Qed.
Print Assumptions C44_hash.
Print Assumptions C44_integer_partial.
Print Assumptions C44_integer_sort_refuted.
Print Assumptions C44_integer_64bit_refuted.
Print Assumptions C44_negative_hash_refuted.
Print Assumptions C53_indexing_partial.
Print Assumptions C53_determinism_partial.
Print Assumptions C53_large_integer_refuted.
