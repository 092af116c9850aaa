(** C35: between/3.  C40: global counters. *)
Require Import ZArith List Bool Lia.
Require Import Verif.Word_Model Verif.Arith_Spec Verif.Arith_Proofs Verif.Between_Model.
Import ListNotations.
Open Scope Z_scope.

(** ** Executions above the choice points [base]: nothing of [base] is retried, removed or cut *)
Inductive above (base : list frame) : st -> st -> Prop :=
| ab_nil s k : stk s = k ++ base -> above base s s
| ab_step s o s1 s2 k : stk s = k ++ base ->
    match o with ORetry | ODelete | OAlt => k <> [] | OCut n => (n <= length k)%nat | _ => True end ->
    exec o s = Some s1 -> above base s1 s2 -> above base s s2.

(** what is undone by going back to the trail [t0] is [v0] *)
Inductive since (v0 : nat -> option wd) (t0 : list nat) (base : list frame) (s : st) : Prop :=
| Since k e : stk s = k ++ base -> Forall (fun f => match f with FBetween _ _ _ m | FOther m => (length t0 <= m)%nat end) k ->
    tr s = e ++ t0 -> (forall x, In x e -> v0 x = None) -> (forall x, ~ In x e -> val s x = v0 x) -> since v0 t0 base s.
Lemma untrail_ok v0 t0 n : forall e v, (forall x, In x e -> v0 x = None) -> (forall x, ~ In x e -> v x = v0 x) -> (n <= length e)%nat ->
  exists e' v', untrail n (e ++ t0) v = (e' ++ t0, v') /\ length e' = (length e - n)%nat /\ (forall x, In x e' -> v0 x = None) /\ (forall x, ~ In x e' -> v' x = v0 x).
Proof.
  induction n as [|n IH]; intros e v A B L.
  - exists e, v. split; [destruct e; reflexivity|]. split; [lia|]. split; assumption.
  - destruct e as [|y e]; [cbn [length] in L; lia|]. cbn [app untrail length] in *. destruct (IH e (upd v y None)) as (e' & v' & E & N & C & D).
    + intros x I. apply A. now right.
    + intros x I. unfold upd. destruct (Nat.eqb_spec x y) as [->|NE]; [symmetry; apply A; now left|]. apply B. intros [->|?]; congruence.
    + lia.
    + exists e', v'. split; [exact E|]. split; [lia|]. split; assumption.
Qed.
Lemma untrail_since v0 t0 base s m : since v0 t0 base s -> (length t0 <= m)%nat -> since v0 t0 base (Untrail_To s m).
Proof.
  intros [k e K M T N O] L. unfold Untrail_To. rewrite T.
  destruct (untrail_ok v0 t0 (length (e ++ t0) - m) e (val s) N O) as (e' & v' & E & _ & C & D); [rewrite app_length; lia|].
  rewrite E. apply (Since _ _ _ _ k (e')); assumption || reflexivity.
Qed.
Lemma untrail_base v0 t0 base s : since v0 t0 base s -> tr (Untrail_To s (length t0)) = t0 /\ forall x, val (Untrail_To s (length t0)) x = v0 x.
Proof.
  intros [k e K M T N O]. unfold Untrail_To. rewrite T.
  destruct (untrail_ok v0 t0 (length (e ++ t0) - length t0) e (val s) N O) as (e' & v' & E & L & C & D); [rewrite app_length; lia|].
  rewrite E. cbn [tr val]. rewrite app_length in L. destruct e'; [|cbn [length] in L; lia]. split; [reflexivity|]. intros x. apply D. intros [].
Qed.
Lemma bind_since v0 t0 base s x w : since v0 t0 base s -> val s x = None -> since v0 t0 base (Bind_UV s x w).
Proof.
  intros [k e K M T N O] V. apply (Since _ _ _ _ k (x :: e)); cbn [Bind_UV stk tr val app]; [exact K|exact M|rewrite T; reflexivity| |].
  - intros y [<-|I]; [|auto]. destruct (in_dec Nat.eq_dec x e) as [I|I]; [auto|]. rewrite <- O by exact I. exact V.
  - intros y I. unfold upd. destruct (Nat.eqb_spec y x) as [->|NE]; [elim I; now left|]. apply O. intros J. apply I. now right.
Qed.
Lemma get_since v0 t0 base s n x : since v0 t0 base s -> since v0 t0 base (Get_Integer s n x).
Proof. intros S. unfold Get_Integer. destruct (val s x) eqn:V; [exact S|]. apply bind_since; assumption. Qed.
Lemma stk_since v0 t0 base s k : since v0 t0 base s -> Forall (fun f => match f with FBetween _ _ _ m | FOther m => (length t0 <= m)%nat end) k ->
  since v0 t0 base (set_stk s (k ++ base)).
Proof. intros [k0 e K M T N O] F. apply (Since _ _ _ _ k (e)); assumption || reflexivity. Qed.
Lemma Forall_skipn {T} (P : T -> Prop) n l : Forall P l -> Forall P (skipn n l).
Proof. revert l. induction n as [|n IH]; intros [|x l] F; cbn [skipn]; auto. inversion F; auto. Qed.
Lemma above_since v0 t0 base s1 s2 : above base s1 s2 -> since v0 t0 base s1 -> since v0 t0 base s2.
Proof.
  induction 1 as [s k K|s o s1 s2 k K G E _ IH]; intros S; [exact S|]. apply IH. clear IH.
  pose proof S as [k0 e K0 M T N O]. rewrite K in K0. apply app_inv_tail in K0. subst k0.
  assert (LT : (length t0 <= length (tr s))%nat) by (rewrite T, app_length; lia).
  destruct o as [x w| | | |n|l u i|]; cbn [exec] in E.
  - destruct (val s x) eqn:V; [discriminate|]. injection E as <-. apply bind_since; assumption.
  - injection E as <-. rewrite K. apply (stk_since v0 t0 base s (_ :: k) S). constructor; assumption.
  - rewrite K in E. destruct k as [|[? ? ? ?|m] k]; try congruence; cbn [app] in E; try discriminate. injection E as <-. apply untrail_since; [exact S|]. inversion M; assumption.
  - rewrite K in E. destruct k as [|[? ? ? ?|m] k]; try congruence; cbn [app] in E; try discriminate. injection E as <-. inversion M; subst.
    apply stk_since; [apply untrail_since; assumption|assumption].
  - injection E as <-. rewrite K. rewrite skipn_app. replace (n - length k)%nat with 0%nat by lia. apply stk_since; [exact S|]. apply Forall_skipn. exact M.
  - destruct (Between_3 s l u i) as [s'| |] eqn:B; try discriminate. injection E as <-. unfold Between_3 in B.
    destruct (Rd_Integer_Check l) as [lz|]; [|discriminate]. destruct (Rd_Integer_Check u) as [uz|]; [|discriminate].
    destruct i as [x|w|].
    + destruct (uz <? lz); [discriminate|]. injection B as <-. apply get_since. destruct (lz <? uz); [|exact S]. rewrite K. apply (stk_since v0 t0 base s (_ :: k) S). constructor; assumption.
    + cbn [Rd_Integer_Check] in B. destruct ((lz <=? UnTag_INT_ w) && (UnTag_INT_ w <=? uz)); [injection B as <-; exact S|discriminate].
    + discriminate.
  - unfold Between_Alt_0 in E. rewrite K in E. destruct k as [|[l u x m|m] k]; try congruence; cbn [app] in E; try discriminate. injection E as <-. inversion M; subst.
    apply get_since. destruct (l =? u); [apply stk_since; [apply untrail_since; assumption|assumption]|].
    apply (stk_since v0 t0 base _ (_ :: k)); [apply untrail_since; assumption|constructor; assumption].
Qed.

(** [answered k s]: between(l, u, X) was called in [s0], [k] times its choice point was resumed (whatever was executed in between), [s] is the state
    after the last answer *)
Inductive answered (s0 : st) (l u : Z) (x : nat) : nat -> st -> Prop :=
| an_call s : Between_3 s0 (WInt (Tag_INT_ l)) (WInt (Tag_INT_ u)) (WVar x) = Yes s -> answered s0 l u x 0 s
| an_retry k s f s1 s2 : answered s0 l u x k s -> stk s = f :: stk s0 -> above (f :: stk s0) s s1 -> stk s1 = f :: stk s0 -> Between_Alt_0 s1 = Some s2 ->
    answered s0 l u x (S k) s2.

(** C35: the answers are l, l+1, ..., u: the one after [k] resumptions is l+k, other variables are as at the call, and there is a choice point
    left just when it is not u. *)
Theorem C35_enumerates : forall s0 l u x, representable l -> representable u -> val s0 x = None ->
  forall k s, answered s0 l u x k s ->
  l + Z.of_nat k <= u /\ val s x = Some (WInt (Tag_INT_ (l + Z.of_nat k))) /\ (forall y, y <> x -> val s y = val s0 y) /\ tr s = x :: tr s0 /\
  stk s = (if l + Z.of_nat k =? u then [] else [FBetween (l + Z.of_nat k + 1) u x (length (tr s0))]) ++ stk s0.
Proof.
  intros s0 l u x Rl Ru V. pose proof (proj1 (repr_iff l) Rl). pose proof (proj1 (repr_iff u) Ru).
  assert (BG : forall s n, val s x = None -> Get_Integer s n x = Bind_UV s x (WInt (Tag_INT_ n))) by (intros s n E; unfold Get_Integer; rewrite E; reflexivity).
  induction 1 as [s E|k s f s1 s2 _ IH K A K1 E].
  - unfold Between_3, Rd_Integer_Check in E. rewrite !UnTag_Tag in E by assumption. destruct (Z.ltb_spec u l); [discriminate|].
    injection E as <-. replace (l + Z.of_nat 0) with l by lia.
    rewrite BG by (destruct (l <? u); exact V). cbn [Bind_UV val tr stk]. split; [lia|].
    split; [unfold upd; rewrite Nat.eqb_refl; reflexivity|].
    destruct (Z.ltb_spec l u), (Z.eqb_spec l u); try lia; cbn [set_stk val tr stk app].
    + split; [intros y NE; unfold upd; destruct (Nat.eqb_spec y x); [congruence|reflexivity]|]. split; [reflexivity|]. rewrite s64_id by lia. reflexivity.
    + split; [intros y NE; unfold upd; destruct (Nat.eqb_spec y x); [congruence|reflexivity]|]. split; reflexivity.
  - destruct IH as (L & X & Y & T & S). rewrite K in S. destruct (Z.eqb_spec (l + Z.of_nat k) u) as [Q|Q].
    { exfalso. cbn [app] in S. apply (f_equal (@length _)) in S. cbn [length] in S. lia. }
    cbn [app] in S. injection S as ->. set (F := FBetween (l + Z.of_nat k + 1) u x (length (tr s0))) in *.
    assert (S0 : since (val s0) (tr s0) (F :: stk s0) s).
    { apply (Since _ _ _ _ [] ([x])); cbn [app]; [exact K|constructor|exact T| |].
      - intros y [<-|[]]. exact V.
      - intros y I. apply Y. intros ->. apply I. now left. }
    pose proof (above_since _ _ _ _ _ A S0) as S1. destruct (untrail_base _ _ _ _ S1) as [U1 U2].
    unfold Between_Alt_0 in E. rewrite K1 in E. unfold F in E at 1. cbn [app] in E. injection E as <-.
    replace (l + Z.of_nat (S k)) with (l + Z.of_nat k + 1) by lia.
    rewrite BG by (destruct (l + Z.of_nat k + 1 =? u); cbn [set_stk val]; rewrite U2; exact V). cbn [Bind_UV val tr stk].
    split; [lia|]. split; [unfold upd; rewrite Nat.eqb_refl; reflexivity|].
    destruct (Z.eqb_spec (l + Z.of_nat k + 1) u); cbn [set_stk val tr stk app].
    + split; [intros y NE; unfold upd; destruct (Nat.eqb_spec y x); [congruence|apply U2]|]. split; [rewrite U1; reflexivity|reflexivity].
    + split; [intros y NE; unfold upd; destruct (Nat.eqb_spec y x); [congruence|apply U2]|]. split; [rewrite U1; reflexivity|]. rewrite s64_id by lia. reflexivity.
Qed.
Definition s_ex : st := St (fun _ => None) [] [FOther 0].
Example C35_enumerates_ex : exists s, answered s_ex 3 5 0 2 s /\ stk s = [FOther 0].
Proof.
  eexists. split.
  - eapply an_retry; [eapply an_retry; [apply an_call; reflexivity| | | |]| | | |].
    + reflexivity.
    + eapply (ab_step _ _ (OBind 7 (WVar 0)) _ _ []); [reflexivity|exact I|reflexivity|]. apply (ab_nil _ _ []). reflexivity.
    + reflexivity.
    + reflexivity.
    + reflexivity.
    + apply (ab_nil _ _ []). reflexivity.
    + reflexivity.
    + reflexivity.
  - reflexivity.
Qed.
(** A call gives a first answer just when the interval is not empty; it changes nothing when it fails. *)
Theorem C35_call : forall s l u x, representable l -> representable u -> val s x = None ->
  (l <= u <-> exists s', Between_3 s (WInt (Tag_INT_ l)) (WInt (Tag_INT_ u)) (WVar x) = Yes s') /\
  (u < l <-> Between_3 s (WInt (Tag_INT_ l)) (WInt (Tag_INT_ u)) (WVar x) = No).
Proof.
  intros s l u x Rl Ru V. unfold Between_3, Rd_Integer_Check. rewrite !UnTag_Tag by assumption. destruct (Z.ltb_spec u l).
  - split; [split; [lia|intros [s' X]; discriminate]|split; [reflexivity|lia]].
  - split; [split; [eauto|lia]|split; [lia|discriminate]].
Qed.
Example C35_call_ex : representable (-2) /\ representable 7. Proof. rewrite !repr_iff. lia. Qed.
(** With an integer: membership, without a choice point.  Other arguments: an error. *)
Theorem C35_check : forall s l u i, representable l -> representable u -> representable i ->
  Between_3 s (WInt (Tag_INT_ l)) (WInt (Tag_INT_ u)) (WInt (Tag_INT_ i)) = if (l <=? i) && (i <=? u) then Yes s else No.
Proof. intros s l u i Rl Ru Ri. unfold Between_3, Rd_Integer_Check. rewrite !UnTag_Tag by assumption. reflexivity. Qed.
Example C35_check_ex : Between_3 s_ex (WInt (Tag_INT_ 3)) (WInt (Tag_INT_ 5)) (WInt (Tag_INT_ 4)) = Yes s_ex. Proof. vm_compute. reflexivity. Qed.
Theorem C35_errors : forall s l u i, (forall w, l <> WInt w) \/ (forall w, u <> WInt w) \/ i = WOther -> Between_3 s l u i = Err.
Proof.
  intros s l u i [N|[N| ->]]; unfold Between_3.
  - destruct l; cbn [Rd_Integer_Check]; try reflexivity. elim (N _ eq_refl).
  - destruct (Rd_Integer_Check l); [|reflexivity]. destruct u; cbn [Rd_Integer_Check]; try reflexivity. elim (N _ eq_refl).
  - destruct (Rd_Integer_Check l), (Rd_Integer_Check u); reflexivity.
Qed.
Example C35_errors_ex : forall w, WVar 1 <> WInt w. Proof. discriminate. Qed.

(** ** C40 *)
(** g_inc, g_dec and their variants add or subtract one, when the result is an integer of Prolog *)
Theorem C40_inc_partial : forall x inc old new, representable x -> inc = 1 \/ inc = -1 -> representable (x + inc) ->
  G_Inc_Dec (Tag_INT_ x) inc old new =
  if match old with Some o => o =? x | None => true end then (match new with Some n => n =? x + inc | None => true end, Tag_INT_ (x + inc)) else (false, Tag_INT_ x).
Proof.
  intros x inc old new R I R2. unfold G_Inc_Dec. rewrite UnTag_Tag by exact R. pose proof (proj1 (repr_iff _) R2). rewrite s64_id by lia.
  destruct old as [o|]; [|reflexivity]. destruct (o =? x); reflexivity.
Qed.
Example C40_inc_ex : G_Inc_Dec (Tag_INT_ 41) 1 (Some 41) None = (true, Tag_INT_ 42) /\ representable 41. Proof. split; [vm_compute; reflexivity|rewrite repr_iff; lia]. Qed.
(** beyond, the counter becomes the smallest integer and no error is raised *)
Theorem C40_inc_refuted : exists x, representable x /\ fst (G_Inc_Dec (Tag_INT_ x) 1 None None) = true /\ UnTag_INT_ (snd (G_Inc_Dec (Tag_INT_ x) 1 None None)) < x.
Proof. exists INT_GREATEST_VALUE. split; [rewrite repr_iff, INT_GREATEST_val; lia|]. split; vm_compute; reflexivity. Qed.

Lemma s64_bits z j : 0 <= j < 64 -> Z.testbit (s64 z) j = Z.testbit z j.
Proof.
  intros J. rewrite <- (Z.mod_pow2_bits_low z 64 j) by lia. rewrite <- (Z.mod_pow2_bits_low (s64 z) 64 j) by lia. f_equal.
  unfold s64. rewrite P63_val, P64_val, W64_val. lia.
Qed.
Lemma untag_bits w k : 0 <= w < W64 -> 0 <= k < 61 -> Z.testbit (UnTag_INT_ w) k = Z.testbit w (k + 3).
Proof. intros Hw Hk. unfold UnTag_INT_. rewrite Z.shiftr_spec by lia. rewrite s64_bits by lia. rewrite u64_id by (rewrite W64_val in Hw; lia). reflexivity. Qed.
Lemma untag_repr w : representable (UnTag_INT_ w).
Proof. rewrite repr_iff. unfold UnTag_INT_. rewrite Z.shiftr_div_pow2 by lia. change (2 ^ 3) with 8. unfold s64. rewrite P63_val, W64_val. lia. Qed.
Lemma mask_val n : 0 <= n -> mask n = 2 ^ (n mod 61 + 3) /\ 0 < mask n < W64.
Proof.
  intros Hn. unfold mask. change VALUE_SIZE with 61. rewrite Z.rem_mod_nonneg by lia. rewrite Z.shiftl_mul_pow2 by (pose proof (Z.mod_pos_bound n 61); lia). rewrite Z.mul_1_l.
  pose proof (Z.mod_pos_bound n 61 ltac:(lia)). assert (0 < 2 ^ (n mod 61 + 3) < W64).
  { split; [apply Z.pow_pos_nonneg; lia|]. unfold W64. apply Z.pow_lt_mono_r; lia. }
  unfold u64. rewrite Z.mod_small by lia. split; [reflexivity|assumption].
Qed.
Lemma word_of_bits w : 0 <= w -> (forall j, 64 <= j -> Z.testbit w j = false) -> w < W64.
Proof.
  intros Hw B. destruct (Z.eq_dec w 0) as [->|]; [reflexivity|]. unfold W64. apply Z.log2_lt_pow2; [lia|]. destruct (Z.lt_ge_cases (Z.log2 w) 64) as [|G]; [assumption|].
  pose proof (Z.bit_log2 w ltac:(lia)) as X. rewrite B in X by exact G. discriminate.
Qed.
Lemma high w j : 0 <= w < W64 -> 64 <= j -> Z.testbit w j = false.
Proof. intros Hw J. destruct (Z.eq_dec w 0) as [->|]; [apply Z.testbit_0_l|]. apply Z.bits_above_log2; [lia|]. unfold W64 in Hw. assert (Z.log2 w < 64) by (apply Z.log2_lt_pow2; lia). lia. Qed.
Lemma tag_bits w : Tag_Is_INT w = true <-> (Z.testbit (u64 w) 0 = true /\ Z.testbit (u64 w) 1 = true /\ Z.testbit (u64 w) 2 = true).
Proof.
  unfold Tag_Is_INT, Tag_Mask_Of, TAG_MASK, TAG_INT. rewrite Z.eqb_eq. split.
  - intros E. rewrite <- (andb_true_r (Z.testbit _ 0)), <- (andb_true_r (Z.testbit _ 1)), <- (andb_true_r (Z.testbit _ 2)).
    change true with (Z.testbit 7 0) at 1. change (Z.testbit (u64 w) 1 && true) with (Z.testbit (u64 w) 1 && Z.testbit 7 1). change (Z.testbit (u64 w) 2 && true) with (Z.testbit (u64 w) 2 && Z.testbit 7 2).
    rewrite <- !Z.land_spec, E. repeat split.
  - intros (A & B & C). apply Z.bits_inj'. intros j J. rewrite Z.land_spec.
    assert (j = 0 \/ j = 1 \/ j = 2 \/ 3 <= j) as [->|[->|[->|G]]] by lia; rewrite ?A, ?B, ?C; try reflexivity.
    replace 7 with (Z.ones 3) by reflexivity. rewrite Z.ones_spec_high by lia. apply andb_false_r.
Qed.
(** g_set_bit, g_reset_bit change one bit (number modulo 61, as documented) and nothing else *)
Theorem C40_bits : forall x n, representable x -> 0 <= n ->
  let w1 := G_Set_Bit (Tag_INT_ x) n in let w2 := G_Reset_Bit (Tag_INT_ x) n in
  Tag_Is_INT w1 = true /\ Tag_Is_INT w2 = true /\ 0 <= w1 < W64 /\ 0 <= w2 < W64 /\
  forall k, 0 <= k < 61 -> Z.testbit (UnTag_INT_ w1) k = (if k =? n mod 61 then true else Z.testbit x k) /\
    Z.testbit (UnTag_INT_ w2) k = (if k =? n mod 61 then false else Z.testbit x k).
Proof.
  intros x n R Hn w1 w2. destruct (mask_val n Hn) as [M MR]. pose proof (Tag_INT_range x) as TR. pose proof (Z.mod_pos_bound n 61 ltac:(lia)) as NB.
  assert (MB : forall j, 0 <= j -> Z.testbit (mask n) j = (j =? n mod 61 + 3)).
  { intros j J. rewrite M. rewrite Z.pow2_bits_eqb by lia. apply Z.eqb_sym. }
  assert (CB : forall j, 0 <= j -> Z.testbit (W64 - 1 - mask n) j = (j <? 64) && negb (j =? n mod 61 + 3)).
  { intros j J. replace (W64 - 1 - mask n) with (Z.ldiff (Z.ones 64) (mask n)).
    - rewrite Z.ldiff_spec, MB by exact J. f_equal. destruct (Z.ltb_spec j 64); [apply Z.ones_spec_low; lia|apply Z.ones_spec_high; lia].
    - symmetry. replace (W64 - 1) with (Z.ones 64) by reflexivity. apply Z.sub_nocarry_ldiff. apply Z.bits_inj'. intros i Hi. rewrite Z.ldiff_spec, Z.bits_0, MB by exact Hi.
      destruct (Z.eqb_spec i (n mod 61 + 3)) as [->|]; [|reflexivity]. rewrite Z.ones_spec_low by lia. reflexivity. }
  assert (R1 : 0 <= w1 < W64).
  { unfold w1, G_Set_Bit. assert (0 <= Z.lor (Tag_INT_ x) (mask n)) by (apply Z.lor_nonneg; lia). split; [assumption|]. apply word_of_bits; [assumption|].
    intros j J. rewrite Z.lor_spec, !high by lia. reflexivity. }
  assert (R2 : 0 <= w2 < W64).
  { unfold w2, G_Reset_Bit. assert (0 <= Z.land (Tag_INT_ x) (W64 - 1 - mask n)) by (apply Z.land_nonneg; lia). split; [assumption|]. apply word_of_bits; [assumption|].
    intros j J. rewrite Z.land_spec, high by lia. reflexivity. }
  pose proof (Tag_Is_INT_Tag x) as TI. apply tag_bits in TI. rewrite u64_id in TI by (rewrite W64_val in TR; lia). destruct TI as (T0 & T1 & T2).
  split; [apply tag_bits; rewrite u64_id by (rewrite W64_val in R1; lia); unfold w1, G_Set_Bit; rewrite !Z.lor_spec, T0, T1, T2; repeat split|].
  split.
  { apply tag_bits; rewrite u64_id by (rewrite W64_val in R2; lia); unfold w2, G_Reset_Bit; rewrite !Z.land_spec, T0, T1, T2, !CB by lia.
    destruct (Z.eqb_spec 0 (n mod 61 + 3)), (Z.eqb_spec 1 (n mod 61 + 3)), (Z.eqb_spec 2 (n mod 61 + 3)); try lia; repeat split. }
  split; [exact R1|]. split; [exact R2|]. intros k Hk. rewrite !untag_bits by (assumption || lia).
  assert (X : Z.testbit x k = Z.testbit (Tag_INT_ x) (k + 3)) by (rewrite <- untag_bits by (assumption || lia); rewrite UnTag_Tag by exact R; reflexivity).
  unfold w1, w2, G_Set_Bit, G_Reset_Bit. rewrite Z.lor_spec, Z.land_spec, MB, CB, <- X by lia.
  destruct (Z.eqb_spec (k + 3) (n mod 61 + 3)), (Z.eqb_spec k (n mod 61)); try lia; destruct (Z.ltb_spec (k + 3) 64); try lia; destruct (Z.testbit x k); split; reflexivity.
Qed.
Example C40_bits_ex : UnTag_INT_ (G_Set_Bit (Tag_INT_ 5) 62) = 7 /\ UnTag_INT_ (G_Reset_Bit (Tag_INT_ 5) 2) = 1 /\ UnTag_INT_ (G_Set_Bit (Tag_INT_ 0) 60) = - 2 ^ 60.
Proof. vm_compute. repeat split. Qed.
(** the tests read that bit *)
Theorem C40_tests : forall x n, representable x -> 0 <= n ->
  G_Test_Set_Bit (Tag_INT_ x) n = Z.testbit x (n mod 61) /\ G_Test_Reset_Bit (Tag_INT_ x) n = negb (Z.testbit x (n mod 61)).
Proof.
  intros x n R Hn. destruct (mask_val n Hn) as [M MR]. pose proof (Tag_INT_range x) as TR. pose proof (Z.mod_pos_bound n 61 ltac:(lia)) as NB.
  assert (E : (Z.land (Tag_INT_ x) (mask n) =? 0) = negb (Z.testbit x (n mod 61))).
  { assert (X : Z.testbit x (n mod 61) = Z.testbit (Tag_INT_ x) (n mod 61 + 3)) by (rewrite <- untag_bits by (assumption || lia); rewrite UnTag_Tag by exact R; reflexivity).
    rewrite X. rewrite M. destruct (Z.testbit (Tag_INT_ x) (n mod 61 + 3)) eqn:B; cbn [negb].
    - apply Z.eqb_neq. intros E. apply (f_equal (fun z => Z.testbit z (n mod 61 + 3))) in E. rewrite Z.land_spec, B, Z.pow2_bits_true, Z.bits_0 in E by lia. discriminate.
    - apply Z.eqb_eq. apply Z.bits_inj'. intros j J. rewrite Z.land_spec, Z.bits_0, Z.pow2_bits_eqb by lia. destruct (Z.eqb_spec (n mod 61 + 3) j) as [<-|]; [rewrite B; reflexivity|apply andb_false_r]. }
  unfold G_Test_Set_Bit, G_Test_Reset_Bit. rewrite E. split; [apply negb_involutive|reflexivity].
Qed.
Example C40_tests_ex : G_Test_Set_Bit (Tag_INT_ (-1)) 60 = true /\ G_Test_Set_Bit (Tag_INT_ 4) 1 = false. Proof. vm_compute. split; reflexivity. Qed.

Print Assumptions C35_enumerates.
Print Assumptions C35_call.
Print Assumptions C35_check.
Print Assumptions C35_errors.
Print Assumptions C40_inc_partial.
Print Assumptions C40_inc_refuted.
Print Assumptions C40_bits.
Print Assumptions C40_tests.
