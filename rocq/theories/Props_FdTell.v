(** Theorems about restricting the domain of a finite domain variable (C29) and about unifying it with an
    integer (C33). *)
Require Import ZArith List Bool Lia Sorted.
Require Import Verif.Heap_Model Verif.FdRange_Model Verif.FdRange_Spec Verif.FdRange_Proofs Verif.FdRange_Set Verif.FdTell_Model Verif.FdTell_Spec Verif.FdTell_Proofs Verif.Props_FdRange.
Import ListNotations.
Open Scope Z_scope.

Notation dom x := (rin (frange x)).
(** for the examples: variables with the domains {5,7}, {5,7,70}, p..q *)
Definition x57 e := Fdv None 2 (Range e 5 7 (Some v57)).
Definition x5770 e := Fdv None 3 (Range e 5 70 (Some v5770)).
Lemma listing57 e : listing (Range e 5 7 (Some v57)) [5; 7].
Proof. split; [repeat constructor; lia|]. intros n. rewrite (rok_rin 2 _ v57 n (rok57 e) eq_refl ltac:(cbn; lia)). rewrite <- (proj2 (enum_ok v57)). reflexivity. Qed.
Lemma listing5770 e : listing (Range e 5 70 (Some v5770)) [5; 7; 70].
Proof. split; [repeat constructor; lia|]. intros n. rewrite (rok_rin 2 _ v5770 n (rok5770 e) eq_refl ltac:(cbn; lia)). rewrite <- (proj2 (enum_ok v5770)). reflexivity. Qed.
Lemma x57_ok e : fdv_ok 2 (x57 e).
Proof. split; [apply rok57|]. split; [cbn; lia|]. split; [unfold IMAX; cbn; lia|]. exists [5; 7]. split; [apply listing57|reflexivity]. Qed.
Lemma x5770_ok e : fdv_ok 2 (x5770 e).
Proof. split; [apply rok5770|]. split; [cbn; lia|]. split; [unfold IMAX; cbn; lia|]. exists [5; 7; 70]. split; [apply listing5770|reflexivity]. Qed.
Lemma xi_ok p q : 0 <= p < q -> q <= IMAX -> fdv_ok 2 (New_Variable_Interval p q).
Proof. apply (New_Variable_ok 2). Qed.
Ltac xi := apply xi_ok; unfold IMAX; lia.

(** * C29: restricting a domain *)
(** [tell_ok] (FdTell_Spec): the events are exactly those of the change; without a warning, success leaves
    exactly the intersection and failure means that it is empty. *)
Theorem C29_tell_value : forall sz x n, small sz -> fdv_ok sz x -> is_int n -> exists t, Tell_Value sz x n = Ret t /\ tell_ok sz x (fun k => k = n) t.
Proof. intros sz x n S. now apply Tell_Value_ok. Qed.
(** Missing: the case excluded by [flag_kept] (FdTell_Spec), refuted below.  It holds for every range without
    the flag. *)
Theorem C29_tell_interval_partial : forall sz junk a x lo hi, small sz -> vok sz junk -> around_ok a -> fdv_ok sz x -> INT_MIN < lo <= INT_MAX -> is_int hi -> (tagv x = None -> flag_kept sz x (Range false lo hi None)) ->
  exists t, Tell_Interval sz junk a x lo hi = Ret t /\ tell_ok sz x (fun k => lo <= k <= hi) t.
Proof. intros sz junk a x lo hi S. now apply Tell_Interval_ok. Qed.
Theorem C29_tell_range_partial : forall sz junk a x r T, small sz -> vok sz junk -> around_ok a -> fdv_ok sz x -> rok sz r -> means sz r T -> (tagv x = None -> flag_kept sz x r) ->
  exists t, Tell_Range sz junk a x r = Ret t /\ tell_ok sz x T t.
Proof. intros sz junk a x r T S. now apply Tell_Range_ok. Qed.
Theorem C29_check_for_bool : forall sz junk a x, small sz -> vok sz junk -> around_ok a -> fdv_ok sz x -> tagv x = None ->
  exists t, Check_For_Bool_Var sz junk a x = Ret t /\ tell_ok sz x (fun k => 0 <= k <= 1) t.
Proof. intros sz junk a x S. now apply Check_For_Bool_ok. Qed.
(** Missing: the two cases of the hypotheses, refuted below. *)
Theorem C29_tell_not_value_partial : forall sz junk x n, small sz -> vok sz junk -> fdv_ok sz x -> is_int n ->
  (extra_cstr (frange x) = true -> tagv x = None -> dom x n -> nb_elem x <> 2) ->
  ~ (tagv x = None /\ vec (frange x) = None /\ rmin (frange x) = vmax sz - 1 /\ n = vmax sz /\ vmax sz < rmax (frange x)) ->
  exists t, Tell_Not_Value sz junk x n = Ret t /\ tell_ok sz x (fun k => k <> n) t.
Proof. intros sz junk x n S. now apply Tell_Not_Value_ok. Qed.
(** Missing: bounds above fd_max_integer and the case excluded by [flag_kept], both refuted below. *)
Theorem C29_fd_domain_partial : forall sz junk a x l u, small sz -> vok sz junk -> around_ok a -> (forall y, x = AFd y -> fdv_ok sz y /\ (tagv y = None -> flag_kept sz y (Range false l u None))) -> l <= IMAX -> u <= IMAX ->
  exists o, Domain_Var_3 sz junk a x l u = Ret o /\
  match x with
  | AVar => match o with
            | None => forall k, 0 <= k -> ~ l <= k <= u
            | Some (AInt n) => forall k, 0 <= k -> (l <= k <= u <-> k = n)
            | Some (AFd y) => fdv_ok sz y /\ tagv y = None /\ stands sz y (fun k => l <= k <= u)
            | Some AVar => False
            end
  | AInt v => o = if (0 <=? v) && (l <=? v) && (v <=? u) then Some (AInt v) else None
  | AFd y => exists t, tell_ok sz y (fun k => l <= k <= u) t /\ o = if success t then Some (AFd (var t)) else None
  end.
Proof. intros sz junk a x l u S. now apply Domain_Var_3_ok. Qed.
Lemma flag_kept_complete sz x r : extra_cstr (frange x) = false -> flag_kept sz x r.
Proof. intros X C. congruence. Qed.
(** the event bits: 1 minimum, 2 maximum, 4 one of them, 8 domain, 16 value *)
Example C29_ex :
  fdv_ok 2 (x5770 false) /\ fdv_ok 2 (New_Variable_Interval 3 9) /\
  Tell_Value 2 (x5770 false) 7 = Ret (Told true (Fdv (Some 7) 1 (Range false 7 7 None)) false 31) /\
  Tell_Value 2 (x5770 false) 6 = Ret (Told false (x5770 false) false 0) /\
  Tell_Interval 2 j0 a0 (New_Variable_Interval 3 9) 5 20 = Ret (Told true (New_Variable_Interval 5 9) false 13) /\
  Tell_Interval 2 j0 a0 (New_Variable_Interval 3 9) 0 20 = Ret (Told true (New_Variable_Interval 3 9) false 0) /\
  Tell_Interval 2 j0 a0 (x5770 false) 6 80 = Ret (Told true (Fdv None 2 (Range false 7 70 (Some [2 ^ 7; 2 ^ 6]))) false 13) /\
  Tell_Range 2 j0 a0 (New_Variable_Interval 6 90) (Range false 5 70 (Some v5770)) = Ret (Told true (Fdv None 2 (Range false 7 70 (Some [2 ^ 7; 2 ^ 6]))) false 15) /\
  Tell_Not_Value 2 j0 (x5770 false) 7 = Ret (Told true (Fdv None 2 (Range false 5 70 (Some [2 ^ 5; 2 ^ 6]))) false 8) /\
  Tell_Not_Value 2 j0 (New_Variable_Interval 3 9) 3 = Ret (Told true (New_Variable_Interval 4 9) false 13) /\
  Tell_Not_Value 2 j0 (New_Variable_Interval 3 5) 4 = Ret (Told true (Fdv None 2 (Range false 3 5 (Some [2 ^ 3 + 2 ^ 5; 0]))) false 8) /\
  Tell_Not_Value 2 j0 (x57 false) 5 = Ret (Told true (Fdv (Some 7) 1 (Range false 7 7 None)) false 29) /\
  Check_For_Bool_Var 2 j0 a0 (New_Variable_Interval 0 9) = Ret (Told true (New_Variable_Interval 0 1) false 14) /\
  Domain_Var_3 2 j0 a0 AVar (-4) 8 = Ret (Some (AFd (New_Variable_Interval 0 8))).
Proof. split; [apply x5770_ok|]. split; [xi|]. repeat (split; [reflexivity|]). reflexivity. Qed.
(** the flag stays when an element is removed, when the minimum is 0 or when the told range is incomplete too *)
Example C29_flag_ex :
  flag_kept 2 (x5770 true) (Range false 6 80 None) /\ flag_kept 2 (x57 true) (Range true 5 70 (Some v5770)) /\ flag_kept 2 (x57 true) (Range false 0 1000 None) /\
  Tell_Interval 2 j0 a0 (x5770 true) 6 80 = Ret (Told true (Fdv None 2 (Range false 7 70 (Some [2 ^ 7; 2 ^ 6]))) false 13) /\
  Tell_Range 2 j0 a0 (x57 true) (Range true 5 70 (Some v5770)) = Ret (Told true (x57 true) false 0) /\
  Tell_Interval 2 j0 a0 (x57 true) 0 1000 = Ret (Told true (x57 true) false 0).
Proof.
  split. { intros _ _ C. exfalso. specialize (C 5 ltac:(apply (proj2 (listing5770 true)); cbn; auto)). destruct C as [C _]. cbn in C. lia. }
  split; [now left|]. split; [intros _ _ _; right; split; [reflexivity|unfold vmax; cbn; lia]|]. repeat (split; [reflexivity|]). reflexivity.
Qed.
(** {5,7} known to be incomplete, told 0..10: no element is removed, but 0 is the new minimum; then X = 0
    succeeds. *)
Theorem C29_tell_flag_refuted : exists x t t', fdv_ok 2 x /\ Tell_Interval 2 j0 a0 x 0 10 = Ret t /\ success t = true /\ warned t = false /\ rmin (frange (var t)) = 0 /\ ~ fdv_ok 2 (var t) /\
  ~ dom x 0 /\ Tell_Value 2 (var t) 0 = Ret t' /\ success t' = true /\ tagv (var t') = Some 0.
Proof.
  exists (x57 true). eexists. eexists. split; [apply x57_ok|]. split; [vm_compute; reflexivity|]. split; [reflexivity|]. split; [reflexivity|]. split; [reflexivity|].
  split; [intros [R _]; assert (C := proj1 (rok_ends 2 _ R ltac:(cbn; lia))); destruct C as [_ C]; discriminate C|].
  split; [intros [C _]; cbn in C; lia|]. split; [vm_compute; reflexivity|]. split; reflexivity.
Qed.
(** X in 126..200 without 127, vectors up to 127: X becomes 126 and no warning is given *)
Theorem C29_tell_not_value_cut_refuted : exists x n t, fdv_ok 2 x /\ Tell_Not_Value 2 j0 x n = Ret t /\ warned t = false /\ tagv (var t) = Some 126 /\ dom x 128 /\ n <> 128 /\ ~ tell_ok 2 x (fun k => k <> n) t.
Proof.
  exists (New_Variable_Interval 126 200), 127. eexists. split; [xi|]. split; [vm_compute; reflexivity|]. split; [reflexivity|]. split; [reflexivity|]. split; [split; [cbn; lia|exact I]|]. split; [lia|].
  intros [_ [H _]]. specialize (H eq_refl eq_refl (fun k => 126 <= k <= 200)). cbn [var stands tagv] in H.
  assert (C : 128 = 126); [|discriminate]. apply (H ltac:(intros k K _; unfold rin; cbn; lia) 128 ltac:(lia)). lia.
Qed.
(** {5,7} known to be incomplete, without 7: it becomes 5 and no warning is given *)
Theorem C29_tell_not_value_extra_refuted : exists x n t, fdv_ok 2 x /\ extra_cstr (frange x) = true /\ Tell_Not_Value 2 j0 x n = Ret t /\ warned t = false /\ tagv (var t) = Some 5 /\ ~ tell_ok 2 x (fun k => k <> n) t.
Proof.
  exists (x57 true), 7. eexists. split; [apply x57_ok|]. split; [reflexivity|]. split; [vm_compute; reflexivity|]. split; [reflexivity|]. split; [reflexivity|].
  intros [_ [H _]]. specialize (H eq_refl eq_refl (fun k => k = 5 \/ k = 7 \/ k = 300)). cbn [var stands tagv] in H.
  assert (C : 300 = 5); [|discriminate]. apply (H ltac:(intros k K [C|C]; [discriminate C|]; rewrite <- (proj2 (listing57 true) k); unfold vmax in C; cbn in C |- *; lia) 300 ltac:(lia)). lia.
Qed.
(** With a warning it can also fail: X in 200..300 without 250. *)
Theorem C29_tell_not_value_fails_refuted : exists x n t, fdv_ok 2 x /\ Tell_Not_Value 2 j0 x n = Ret t /\ success t = false /\ dom x 200 /\ n <> 200.
Proof. exists (New_Variable_Interval 200 300), 250. eexists. split; [xi|]. split; [vm_compute; reflexivity|]. split; [reflexivity|]. split; [split; [cbn; lia|exact I]|lia]. Qed.
(** fd_domain(X, 10^9, 10^10) binds X to 268435455 *)
Theorem C29_fd_domain_refuted : exists l u n, Domain_Var_3 2 j0 a0 AVar l u = Ret (Some (AInt n)) /\ n < l.
Proof. exists (10 ^ 9), (10 ^ 10), 268435455. split; [reflexivity|reflexivity]. Qed.

(** * C33: an integer *)
Theorem C33_unify_integer_partial : forall sz x v, small sz -> fdv_ok sz x -> is_int v ->
  exists t, Unify_With_Integer sz x v = Ret t /\ (success t = true <-> dom x v) /\ tell_ok sz x (fun k => k = v) t.
Proof. intros sz x v S. now apply Unify_With_Integer_iff. Qed.
Example C33_ex : fdv_ok 2 (x5770 false) /\ map (fun v => bind (Unify_With_Integer 2 (x5770 false) v) (fun t => Ret (success t))) [4; 5; 6; 7; 70; -5] = map Ret [false; true; false; true; true; false].
Proof. split; [apply x5770_ok|reflexivity]. Qed.
(** The integer is passed as a 32-bit int: 4294967301 unifies with a variable in {5,7,70} and makes it 5. *)
Theorem C33_truncated_refuted : exists x v t, fdv_ok 2 x /\ - 2 ^ 60 <= v < 2 ^ 60 /\ Unify_With_Integer 2 x v = Ret t /\ success t = true /\ ~ dom x v /\ tagv (var t) = Some 5.
Proof.
  exists (x5770 false), (2 ^ 32 + 5). eexists. split; [apply x5770_ok|]. split; [lia|]. split; [vm_compute; reflexivity|]. split; [reflexivity|]. split; [|reflexivity]. intros [C _]. cbn in C. lia.
Qed.

Print Assumptions C29_tell_value.
Print Assumptions C29_tell_interval_partial.
Print Assumptions C29_tell_range_partial.
Print Assumptions C29_check_for_bool.
Print Assumptions C29_tell_not_value_partial.
Print Assumptions C29_fd_domain_partial.
Print Assumptions C29_tell_flag_refuted.
Print Assumptions C29_tell_not_value_cut_refuted.
Print Assumptions C29_tell_not_value_extra_refuted.
Print Assumptions C29_tell_not_value_fails_refuted.
Print Assumptions C29_fd_domain_refuted.
Print Assumptions C33_unify_integer_partial.
Print Assumptions C33_truncated_refuted.
