(** Proofs about restricting the domain of a variable. *)
Require Import ZArith List Bool Lia Sorted.
Require Import Verif.Heap_Model Verif.FdRange_Model Verif.FdRange_Spec Verif.FdRange_Proofs Verif.FdRange_Set Verif.FdTell_Model Verif.FdTell_Spec.
Import ListNotations.
Open Scope Z_scope.

(** ** Counting *)
Lemma sorted_nodup l : StronglySorted Z.lt l -> NoDup l.
Proof.
  induction 1 as [|a l _ IH F]; constructor; auto. intros I. rewrite Forall_forall in F. specialize (F _ I). lia.
Qed.
Lemma card_le r r' l l' : listing r l -> listing r' l' -> (forall k, rin r' k -> rin r k) -> (length l' <= length l)%nat.
Proof.
  intros [S1 L1] [S2 L2] H. apply NoDup_incl_length; [now apply sorted_nodup|]. intros k I. apply L1, H, L2, I.
Qed.
Lemma card_eq r r' l l' : listing r l -> listing r' l' -> (forall k, rin r' k -> rin r k) -> length l = length l' -> forall k, rin r k -> rin r' k.
Proof.
  intros [S1 L1] [S2 L2] H E k I. apply L2. assert (A : (length l <= length l')%nat) by lia. assert (B : incl l' l) by (intros j J; apply L1, H, L2, J). apply (NoDup_length_incl (sorted_nodup _ S2) A B). now apply L1.
Qed.
Lemma card_one_less r r' l l' n : listing r l -> listing r' l' -> rin r n -> (forall k, rin r' k <-> k <> n /\ rin r k) -> length l = S (length l').
Proof.
  intros [S1 L1] [S2 L2] I H. apply Nat.le_antisymm.
  - apply (NoDup_incl_length (sorted_nodup _ S1) (l' := n :: l')). intros k K. destruct (Z.eq_dec k n) as [->|N]; [now left|]. right. apply L2, H. split; [exact N|]. now apply L1.
  - apply (NoDup_incl_length (l := n :: l')).
    + constructor; [|now apply sorted_nodup]. intros K. apply L2, H in K. tauto.
    + intros k [<-|K]; [now apply L1|]. apply L1. apply L2, H in K. tauto.
Qed.
Lemma card_pair r l a b : listing r l -> a < b -> rin r a -> rin r b -> (length l = 2%nat <-> forall k, rin r k -> k = a \/ k = b).
Proof.
  intros [S1 L1] L A B. pose proof (sorted_nodup _ S1) as N. split.
  - intros E k K. assert (ND : NoDup [a; b]) by (constructor; [intros [<-|[]]; lia|constructor; [intros []|constructor]]).
    pose proof (NoDup_length_incl ND (l' := l)) as I. cbn [length] in I. specialize (I ltac:(lia)). assert (J : incl [a; b] l) by (intros j [<-|[<-|[]]]; now apply L1). specialize (I J k (proj2 (L1 k) K)). destruct I as [<-|[<-|[]]]; auto.
  - intros H. apply Nat.le_antisymm.
    + apply (NoDup_incl_length N (l' := [a; b])). intros k K. destruct (H k (proj1 (L1 k) K)) as [->| ->]; cbn; auto.
    + apply (NoDup_incl_length (l := [a; b])); [constructor; [intros [<-|[]]; lia|constructor; [intros []|constructor]]|]. intros j [<-|[<-|[]]]; now apply L1.
Qed.
Section T.
Variable sz : nat.
Hypothesis small : 64 * Z.of_nat sz <= 2 ^ 28.
Notation vmax := (vmax sz).
Notation dom x := (rin (frange x)).
Ltac ints := unfold is_int, INT_MIN, INT_MAX, IMAX, FdRange_Model.vmax in *; lia.
Lemma has_listing r : rok sz r -> rmin r <= rmax r -> exists l, listing r l.
Proof.
  intros R L. destruct (vec r) as [v|] eqn:E; [exists (enum v); now apply (sparse_listing sz r v)|eexists; now apply (interval_listing sz r)].
Qed.
Lemma rok_ends r : rok sz r -> rmin r <= rmax r -> rin r (rmin r) /\ rin r (rmax r).
Proof.
  intros [A [B C]] L. unfold rin. destruct (vec r) as [v|]; [|split; split; auto; lia]. destruct C as [V C]. destruct (C L) as [C1 [C2 _]]. split; split; auto; lia.
Qed.
Lemma means_rin r T k : rok sz r -> means sz r T -> 0 <= k -> rin r k -> T k.
Proof.
  intros R M K I. apply M; auto. destruct R as [_ [_ C]]. destruct (vec r) as [v|] eqn:E; [|now left]. right. destruct I as [I1 I2]. rewrite E in I2. destruct C as [V _]. apply (vin_range _ _ _ V I2).
Qed.
(** the facts about unbound variables *)
Lemma unbound x : fdv_ok sz x -> tagv x = None -> rok sz (frange x) /\ 0 <= rmin (frange x) < rmax (frange x) /\ rmax (frange x) <= IMAX /\ exists l, listing (frange x) l /\ nb_elem x = Z.of_nat (length l).
Proof. intros O E. unfold fdv_ok in O. now rewrite E in O. Qed.
Lemma bound x n : fdv_ok sz x -> tagv x = Some n -> forall k, dom x k <-> k = n.
Proof. intros O E k. unfold fdv_ok in O. rewrite E in O. destruct O as [_ [A [B [C _]]]]. unfold rin. rewrite A, B, C. split; [lia|]. intros ->. split; [lia|exact I]. Qed.
Lemma test_var x n : fdv_ok sz x -> exists b, Range_Test_Value (frange x) n = Ret b /\ (b = true <-> dom x n).
Proof.
  intros O. destruct (tagv x) as [m|] eqn:E.
  - pose proof (bound x m O E n) as B. unfold fdv_ok in O. rewrite E in O. destruct O as [_ [A1 [A2 [A3 _]]]]. unfold Range_Test_Value. rewrite A1, A2, A3. exists (n =? m). split.
    + destruct (Z.ltb_spec n m), (Z.ltb_spec m n), (Z.eqb_spec n m); cbn [orb]; reflexivity || lia.
    + rewrite B. apply Z.eqb_eq.
  - apply (Test_Value_ok sz small (frange x) n). now apply unbound.
Qed.
Lemma events_same x : events x x 0.
Proof. unfold events. rewrite !Z.bits_0. repeat split; try discriminate; try tauto; intros; try lia. destruct H as [[k [A B]]|A]; tauto. Qed.
Lemma tell_same x (R : Z -> Prop) : fdv_ok sz x -> (exists k, dom x k) -> (forall k, dom x k -> 0 <= k -> R k) -> (forall T, stands sz x T -> stands sz x (fun k => T k /\ R k)) ->
  tell_ok sz x R (Told true x false 0).
Proof.
  intros O N H M. split; [|split]; cbn [success var warned propag].
  - intros _. split; [exact O|]. split; [apply events_same|]. split; [exact N|]. intros k K. split; auto.
  - intros _ _. exact M.
  - discriminate.
Qed.
Lemma tell_fail x (R : Z -> Prop) w m : (w = false -> forall T, stands sz x T -> forall k, 0 <= k -> ~ (T k /\ R k)) -> tell_ok sz x R (Told false x w m).
Proof. intros H. split; [discriminate|]. split; [discriminate|]. cbn. intros W _. now apply H. Qed.
Lemma stands_int x x' n (T : Z -> Prop) : x' = fst (Update_Range_From_Int x n) -> (forall k, 0 <= k -> (T k <-> k = n)) -> stands sz x' T.
Proof. intros -> H. exact H. Qed.
Lemma from_int_ok x n : fdv_ok sz x -> tagv x = None -> dom x n ->
  let x' := fst (Update_Range_From_Int x n) in fdv_ok sz x' /\ events x x' (snd (Update_Range_From_Int x n)) /\ (forall k, dom x' k <-> k = n) /\ extra_cstr (frange x') = extra_cstr (frange x).
Proof.
  intros O E D. destruct (unbound x O E) as [R [L [Lm _]]]. cbv zeta. unfold Update_Range_From_Int. cbn [fst snd].
  assert (B : rmin (frange x) <= n <= rmax (frange x)) by apply D.
  assert (DD : forall k, dom (Fdv (Some n) 1 (Range (extra_cstr (frange x)) n n None)) k <-> k = n) by (intros k; unfold rin; cbn; split; [lia|]; intros ->; split; [lia|exact I]).
  split; [|split; [|split; [exact DD|reflexivity]]].
  - unfold fdv_ok. cbn [tagv frange rmin rmax vec nb_elem]. split; [ints|auto].
  - destruct (rok_ends _ R ltac:(lia)) as [E1 E2]. unfold events. cbn [frange rmin rmax extra_cstr tagv]. rewrite E.
    assert (C : exists k, dom x k /\ ~ dom (Fdv (Some n) 1 (Range (extra_cstr (frange x)) n n None)) k).
    { destruct (Z.eq_dec n (rmin (frange x))) as [->|N]; [exists (rmax (frange x))|exists (rmin (frange x))]; split; auto; rewrite DD; lia. }
    destruct (Z.eqb_spec (rmin (frange x)) n), (Z.eqb_spec (rmax (frange x)) n); try lia; vm_compute Z.testbit; repeat split; intros; try lia; try reflexivity; try discriminate; auto.
Qed.
(** ** Values *)
Theorem Tell_Value_ok x n : fdv_ok sz x -> is_int n -> exists t, Tell_Value sz x n = Ret t /\ tell_ok sz x (fun k => k = n) t.
Proof.
  intros O Hn. unfold Tell_Value. destruct (test_var x n O) as [b [Eb Hb]]. rewrite Eb. cbn [bind]. destruct b.
  - assert (D : dom x n) by now apply Hb. destruct (tagv x) as [m|] eqn:E.
    + eexists. split; [reflexivity|]. pose proof (bound x m O E) as B. assert (n = m) as -> by now apply B. apply tell_same; auto.
      * now exists m.
      * intros k K _. now apply B.
      * intros T M. unfold stands in *. rewrite E in *. intros k K. rewrite (M k K). tauto.
    + destruct (from_int_ok x n O E D) as [F1 [F2 [F3 F4]]]. destruct (Update_Range_From_Int x n) as [x' m] eqn:Ui. cbn [fst snd] in *. eexists. split; [reflexivity|]. split; [|split]; cbn [success var warned propag].
      * intros _. split; [exact F1|]. split; [exact F2|]. split; [exists n; now apply F3|]. intros k K. apply F3 in K. subst k. auto.
      * intros _ _ T M. apply (stands_int x x' n); [now rewrite Ui|]. intros k K. split; [tauto|]. intros ->. split; [|reflexivity]. unfold stands in M. rewrite E in M. apply (means_rin (frange x)); auto. now apply unbound.
      * discriminate.
  - eexists. split; [reflexivity|]. apply tell_fail. intros W T M k K [Tk ->]. assert (D : ~ dom x n) by (intros C; apply Hb in C; discriminate). apply D. unfold stands in M. destruct (tagv x) as [m|] eqn:E; [apply (bound x m O E); now apply M|]. apply M; auto.
    destruct (extra_cstr (frange x)); [right; cbn in W; apply Z.ltb_ge in W; lia|now left].
Qed.
(** ** Intervals *)
Lemma interval_dom x : vec (frange x) = None -> forall k, dom x k <-> rmin (frange x) <= k <= rmax (frange x).
Proof. intros E k. unfold rin. rewrite E. tauto. Qed.
Lemma zseq_len r l : rok sz r -> vec r = None -> rmin r <= rmax r -> listing r l -> Z.of_nat (length l) = rmax r - rmin r + 1.
Proof.
  intros R E L H. rewrite (listing_unique sz r l _ H (interval_listing sz r R E)). unfold zseq. rewrite map_length, seq_length. lia.
Qed.
Theorem Tell_Interv_Interv_ok x lo hi : fdv_ok sz x -> tagv x = None -> vec (frange x) = None ->
  exists t, Tell_Interv_Interv x lo hi = Ret t /\ tell_ok sz x (fun k => lo <= k <= hi) t.
Proof.
  intros O E V. destruct (unbound x O E) as [R [L [Lm [l [Ll Hn]]]]]. pose proof (interval_dom x V) as D. assert (X : extra_cstr (frange x) = false) by (destruct R as [_ [_ R]]; now rewrite V in R).
  unfold Tell_Interv_Interv. cbv zeta. destruct (Z.ltb_spec (Z.min hi (rmax (frange x))) (Z.max lo (rmin (frange x)))).
  { eexists. split; [reflexivity|]. apply tell_fail. intros _ T M k K [Tk Rk]. unfold stands in M. rewrite E in M. apply (M k K (or_introl X)), D in Tk. lia. }
  destruct (Z.eqb_spec (Z.max lo (rmin (frange x))) (Z.min hi (rmax (frange x)))) as [Q|Q].
  - set (n := Z.max lo (rmin (frange x))) in *. destruct (from_int_ok x n O E) as [F1 [F2 [F3 F4]]]; [apply D; lia|]. destruct (Update_Range_From_Int x n) as [x' m] eqn:Ui. cbn [fst snd] in *. eexists. split; [reflexivity|]. split; [|split]; cbn [success var warned propag].
    + intros _. split; [exact F1|]. split; [exact F2|]. split; [exists n; now apply F3|]. intros k K. apply F3 in K. subst k. split; [apply D; lia|lia].
    + intros _ _ T M. apply (stands_int x x' n); [now rewrite Ui|]. unfold stands in M. rewrite E in M. intros k K. rewrite <- (M k K (or_introl X)), D. lia.
    + discriminate.
  - set (p := Z.max lo (rmin (frange x))) in *. set (q := Z.min hi (rmax (frange x))) in *. assert (Bpq : rmin (frange x) <= p /\ q <= rmax (frange x) /\ p < q /\ lo <= p /\ q <= hi) by (unfold p, q in *; lia). rewrite (ck_ok (q - p)) by ints. cbn [bind]. rewrite (ck_ok (q - p + 1)) by ints. cbn [bind].
    rewrite (zseq_len _ _ R V ltac:(lia) Ll) in Hn. unfold Update_Interval_From_Interval. rewrite Hn. destruct (Z.eqb_spec (rmax (frange x) - rmin (frange x) + 1) (q - p + 1)) as [C|C].
    + eexists. split; [reflexivity|]. apply tell_same; auto.
      * exists (rmin (frange x)). apply D. lia.
      * intros k K. apply D in K. lia.
      * intros T M. unfold stands in *. rewrite E in *. intros k K Vk. rewrite <- (M k K Vk). rewrite D. lia.
    + eexists. split; [reflexivity|]. rewrite E, X, V. assert (R' : rok sz (Range false p q None)) by (split; [cbn [rmin]; ints|]; split; [cbn [rmax]; ints|reflexivity]).
      assert (D' : forall k, rin (Range false p q None) k <-> p <= k <= q) by (intros k; unfold rin; cbn; tauto). split; [|split]; cbn [success var warned propag frange].
      * intros _. split; [|split; [|split]].
        -- unfold fdv_ok. cbn [tagv frange rmin rmax nb_elem]. split; [exact R'|]. split; [lia|]. split; [lia|]. destruct (has_listing _ R') as [l' Hl']; [cbn; lia|]. exists l'. split; [exact Hl'|]. symmetry. apply (zseq_len _ _ R' eq_refl); [cbn; lia|exact Hl'].
        -- unfold events. cbn [frange rmin rmax extra_cstr tagv]. rewrite E, X.
           assert (Ch : exists k, dom x k /\ ~ rin (Range false p q None) k).
           { destruct (Z.eq_dec p (rmin (frange x))); [exists (rmax (frange x))|exists (rmin (frange x))]; rewrite D, D'; lia. }
           destruct (Z.eqb_spec (rmin (frange x)) p), (Z.eqb_spec (rmax (frange x)) q); try lia; vm_compute Z.testbit; repeat split; intros; try lia; try reflexivity; try discriminate; try tauto; auto.
        -- exists p. apply D'. lia.
        -- intros k K. apply D' in K. rewrite D. lia.
      * intros _ _ T M. unfold stands in M |- *. rewrite E in M. cbn [tagv frange]. intros k K _. rewrite D', <- (M k K (or_introl X)), D. lia.
      * discriminate.
Qed.
(** ** Ranges *)
Lemma sparse_vec junk r s : sparse_copy sz junk r = Ret s -> exists w, vec s = Some w.
Proof.
  clear small. unfold sparse_copy. destruct (vec r) eqn:Q; [intros X; injection X as <-; eauto|]. unfold Range_Becomes_Sparse. match goal with |- context [if ?b then bind _ _ else _] => destruct b end.
  - destruct (Vector_From_Interval sz _ _); [|discriminate..]. cbn [bind]. intros X. injection X as <-. cbn. eauto.
  - intros X. injection X as <-. cbn. eauto.
Qed.
Lemma inter_vec junk a r r1 r' : Range_Inter sz junk a r r1 = Ret r' -> vec r <> None \/ vec r1 <> None ->
  exists s s1, sparse_copy sz junk r = Ret s /\ sparse_copy sz junk r1 = Ret s1 /\ extra_cstr r' = extra_cstr s && extra_cstr s1 /\ exists w, vec r' = Some w.
Proof.
  clear small. intros Er N. assert (Er' : bind (sparse_copy sz junk r) (fun r => bind (sparse_copy sz junk r1) (fun r1 => let e := extra_cstr r && extra_cstr r1 in if Is_Empty r then Ret (set_extra r e) else if Is_Empty r1 then Ret (Set_To_Empty (set_extra r e)) else Range_From_Vector a (Range e (rmin r) (rmax r) (Some (Vector_Inter (the_vec r) (the_vec r1)))))) = Ret r').
  { revert Er. unfold Range_Inter. destruct (vec r), (vec r1); auto. destruct N; congruence. }
  clear Er N. destruct (sparse_copy sz junk r) as [s| |] eqn:S0; [|discriminate..]. cbn [bind] in Er'. destruct (sparse_copy sz junk r1) as [s1| |] eqn:S1; [|discriminate..]. cbn [bind] in Er'. exists s, s1. split; [reflexivity|]. split; [reflexivity|].
  destruct (sparse_vec _ _ _ S0) as [w Hw]. cbv zeta in Er'.
  destruct (Is_Empty s); [injection Er' as <-; cbn; eauto|]. destruct (Is_Empty s1); [injection Er' as <-; cbn; eauto|]. unfold Range_From_Vector in Er'. cbn [vec] in Er'.
  destruct (first_up _ _); [destruct (first_down _ _); [injection Er' as <-; cbn; eauto|]|]; (destruct (above a =? 0); [injection Er' as <-; cbn; eauto|]); (destruct (first_down _ _); [injection Er' as <-; cbn; eauto|discriminate]).
Qed.
Theorem Tell_Range_Range_ok junk a x r1 T1 : vok sz junk -> around_ok a -> fdv_ok sz x -> tagv x = None -> rok sz r1 -> means sz r1 T1 -> flag_kept sz x r1 ->
  exists t, Tell_Range_Range sz junk a x r1 = Ret t /\ tell_ok sz x T1 t.
Proof.
  intros J A O E R1 M1 Fk. destruct (unbound x O E) as [R [L [Lm [l [Ll Hn]]]]].
  assert (Mx : means sz (frange x) (dom x)) by (intros k _ _; tauto).
  destruct (Inter_ok sz small junk a r1 (frange x) T1 (dom x) J A R1 R M1 Mx) as [r' [Er [R' M']]].
  assert (Mall : forall T, means sz (frange x) T -> means sz r' (fun k => T k /\ T1 k)).
  { intros T M. destruct (Inter_ok sz small junk a r1 (frange x) T1 T J A R1 R M1 M) as [r2 [Er2 [_ M2]]]. rewrite Er in Er2. injection Er2 as <-. intros k K V. rewrite (M2 k K V). tauto. }
  unfold Tell_Range_Range. rewrite Er. cbn [bind]. unfold Is_Empty. destruct (Z.ltb_spec (rmax r') (rmin r')) as [Em|Em].
  { eexists. split; [reflexivity|]. apply tell_fail. intros W T M k K C. unfold stands in M. rewrite E in M. apply (Mall T M k K (or_introl W)) in C. destruct C as [C _]. lia. }
  (* elements of the intersection are elements *)
  assert (Inc : forall k, rin r' k -> dom x k /\ (0 <= k -> T1 k)).
  { intros k K. assert (G : vec r1 <> None \/ vec (frange x) <> None -> dom x k /\ (0 <= k -> T1 k)).
    { intros N. destruct (inter_vec _ _ _ _ _ Er N) as [_ [_ [_ [_ [_ [w Vw]]]]]]. assert (G : 0 <= k <= vmax) by (destruct K as [_ K]; rewrite Vw in K; exact (vin_range _ _ _ (rok_vec sz r' w R' Vw) K)).
      apply (M' k (proj1 G) (or_intror (proj2 G))) in K. tauto. }
    destruct (vec r1) eqn:V1; [apply G; left; discriminate|]. destruct (vec (frange x)) eqn:V; [apply G; right; discriminate|]. unfold Range_Inter in Er. rewrite V, V1 in Er. injection Er as <-. destruct K as [B _]. cbn in B.
    assert (C : dom x k) by (unfold rin; rewrite V; split; [lia|exact I]). split; [exact C|]. intros K. apply (means_rin r1); auto. unfold rin. rewrite V1. split; [lia|exact I]. }
  assert (Ends := rok_ends r' R' Em). destruct Ends as [E1 E2].
  assert (Hmm : rmin (frange x) <= rmin r' /\ rmax r' <= rmax (frange x)) by (destruct (Inc _ E1) as [[C1 _] _]; destruct (Inc _ E2) as [[C2 _] _]; lia).
  destruct (Z.eqb_spec (rmin r') (rmax r')) as [Q|Q].
  - destruct (from_int_ok x (rmin r') O E (proj1 (Inc _ E1))) as [F1 [F2 [F3 F4]]]. destruct (Update_Range_From_Int x (rmin r')) as [x' m] eqn:Ui. cbn [fst snd] in *. eexists. split; [reflexivity|]. split; [|split]; cbn [success var warned propag].
    + intros _. split; [exact F1|]. split; [exact F2|]. split; [exists (rmin r'); now apply F3|]. intros k K. apply F3 in K. subst k. now apply Inc.
    + intros W _ T M. apply (stands_int x x' (rmin r')); [now rewrite Ui|]. unfold stands in M. rewrite E in M. intros k K. rewrite <- (Mall T M k K (or_introl W)). split; [intros [C _]; lia|]. intros ->; exact E1.
    + discriminate.
  - destruct (has_listing r' R' Em) as [l' Hl'].
    rewrite (Nb_Elem_ok sz r' l' R' Em); [|ints|exact Hl']. cbn [bind].
    assert (Cnt : nb_elem x = Z.of_nat (length l') <-> forall k, dom x k -> rin r' k).
    { rewrite Hn. split.
      - intros C. apply (card_eq (frange x) r' l l'); auto; [intros k K; now apply Inc|lia].
      - intros C. f_equal. apply Nat.le_antisymm; [apply (card_le r' (frange x) l' l); auto|]. apply (card_le (frange x) r' l l'); auto. intros k K. now apply Inc. }
    assert (Xv : vec (frange x) = None -> vec r' = None -> extra_cstr r' = extra_cstr (frange x)) by (intros C1 C2; destruct R as [_ [_ R]], R' as [_ [_ R']]; rewrite C1 in R; rewrite C2 in R'; congruence).
    assert (Ok' : fdv_ok sz (Fdv (tagv x) (Z.of_nat (length l')) r')) by (unfold fdv_ok; cbn [tagv]; rewrite E; cbn [frange nb_elem]; repeat split; try apply R'; try lia; exists l'; auto).
    assert (Same : nb_elem x = Z.of_nat (length l') -> rmin (frange x) = rmin r' /\ rmax (frange x) = rmax r').
    { intros C. apply Cnt in C || (pose proof (proj1 Cnt C) as C'; clear C; rename C' into C). destruct (rok_ends _ R ltac:(lia)) as [X1 X2]. destruct (C _ X1) as [Y1 _]. destruct (C _ X2) as [Y2 _]. lia. }
    unfold Update_Range_From_Range. cbv zeta.
    match goal with |- context [if negb (?m =? 0) || _ then _ else _] => set (mm := m) end.
    assert (Ev : forall y, frange y = r' -> tagv y = None -> extra_cstr r' = extra_cstr (frange x) \/ nb_elem x <> Z.of_nat (length l') -> events x y mm).
    { intros y Ey Ty Hx. unfold events. rewrite Ey, Ty, E. unfold mm.
      assert (Dm : (exists k, dom x k /\ ~ rin r' k) \/ extra_cstr (frange x) <> extra_cstr r' <-> nb_elem x <> Z.of_nat (length l')).
      { split.
        - intros [[k [K1 K2]]|C]; [intros C; apply K2; now apply (proj1 Cnt C)|]. destruct Hx as [Hx|Hx]; [congruence|exact Hx].
        - intros C. left. destruct (List.forallb (fun k => existsb (Z.eqb k) l') l) eqn:F.
          + exfalso. apply C, Cnt. intros k K. apply (proj2 Ll) in K. rewrite forallb_forall in F. specialize (F k K). apply existsb_exists in F. destruct F as [j [J1 J2]]. apply Z.eqb_eq in J2. subst j. now apply (proj2 Hl').
          + assert (Ex : exists k, In k l /\ existsb (Z.eqb k) l' = false). { clear - F. induction l as [|c l IH]; [discriminate|]. cbn [forallb] in F. destruct (existsb (Z.eqb c) l') eqn:Q; [|exists c; split; [now left|exact Q]]. cbn in F. destruct (IH F) as [k [K1 K2]]. exists k. split; [now right|exact K2]. }
            destruct Ex as [k [K1 K2]]. exists k. split; [now apply (proj2 Ll)|]. intros Rk. apply (proj2 Hl') in Rk. assert (existsb (Z.eqb k) l' = true) by (apply existsb_exists; exists k; split; [exact Rk|apply Z.eqb_refl]). congruence. }
      rewrite Dm. destruct (Z.eqb_spec (nb_elem x) (Z.of_nat (length l'))) as [C|C].
      - destruct (Same C) as [-> ->]. rewrite !Z.eqb_refl. rewrite Z.bits_0. cbn. repeat split; intros; try lia; try discriminate; tauto.
      - destruct (Z.eqb_spec (rmin (frange x)) (rmin r')), (Z.eqb_spec (rmax (frange x)) (rmax r')); vm_compute Z.testbit; repeat split; intros; try lia; try reflexivity; try discriminate; try tauto; auto. }
    match goal with |- context [if ?c then (Fdv _ _ r', _) else _] => destruct c eqn:C end.
    + eexists. split; [reflexivity|]. split; [|split]; cbn [success var warned propag frange].
      * intros _. split; [exact Ok'|]. split; [|split; [eauto|exact Inc]]. apply Ev; auto.
        (* the flag does not change unless the domain does *)
        destruct (Z.eq_dec (nb_elem x) (Z.of_nat (length l'))) as [Cn|Cn]; [left|now right].
        destruct (Same Cn) as [S1 S2]. assert (Z0 : mm = 0) by (unfold mm; rewrite S1, S2, Cn, !Z.eqb_refl; reflexivity). rewrite Z0 in C. cbn [Z.eqb negb orb] in C. apply andb_true_iff in C. destruct C as [C1 C2].
        unfold is_interval in C1, C2. destruct (vec (frange x)) eqn:Vx; [discriminate|]. destruct (vec r') as [w|] eqn:Vr; [|discriminate].
        assert (X0 : extra_cstr (frange x) = false) by (destruct R as [_ [_ R]]; now rewrite Vx in R). rewrite X0. destruct (extra_cstr r') eqn:X1; [exfalso|reflexivity].
        (* flagged: the interval went beyond the vector *)
        destruct (vec r1) as [v1|] eqn:V1; [|unfold Range_Inter in Er; rewrite Vx, V1 in Er; injection Er as <-; cbn in Vr; discriminate].
        assert (N1 : vec r1 <> None) by (rewrite V1; discriminate). destruct (inter_vec _ _ _ _ _ Er (or_introl N1)) as [s1 [s2 [_ [P2' [Xe _]]]]].
        destruct (sparse_copy_ok sz small junk (frange x) J R) as [s2' [w2 [P2 [_ [_ [_ [_ [_ [_ P8]]]]]]]]]. rewrite P2 in P2'. injection P2' as ->. destruct (P8 Vx) as [_ [_ P9]].
        rewrite X1, P9 in Xe. symmetry in Xe. apply andb_true_iff in Xe. destruct Xe as [_ Xe]. apply Z.ltb_lt in Xe. assert (Bd := rok_bounds sz r' w R' Vr Em). lia.
      * intros _ _ T M. unfold stands in M |- *. cbn [tagv frange]. rewrite E in *. now apply Mall.
      * discriminate.
    + apply orb_false_iff in C. destruct C as [C1 C2]. apply negb_false_iff, Z.eqb_eq in C1.
      assert (Cn : nb_elem x = Z.of_nat (length l')). { destruct (Z.eqb_spec (nb_elem x) (Z.of_nat (length l'))) as [C|C]; [exact C|]. unfold mm in C1. destruct (Z.eqb_spec (nb_elem x) (Z.of_nat (length l'))); [contradiction|]. destruct (rmin (frange x) =? rmin r'), (rmax (frange x) =? rmax r'); vm_compute in C1; discriminate. }
      pose proof (proj1 Cnt Cn) as Sub. assert (Eqd : forall k, rin r' k <-> dom x k) by (intros k; split; [intros K; now apply Inc|apply Sub]).
      destruct (Bool.eqb (extra_cstr (frange x)) (extra_cstr r')) eqn:Xq.
      * apply eqb_prop in Xq. eexists. split; [reflexivity|]. rewrite C1. apply tell_same; auto.
        -- exists (rmin (frange x)). now apply rok_ends; [|lia].
        -- intros k K K0. apply Inc; auto.
        -- intros T M. unfold stands in *. rewrite E in *. intros k K V. rewrite <- Eqd. rewrite Xq in V. apply (Mall T M k K V).
      * apply eqb_false_iff in Xq.
        assert (V0 : rmin (frange x) = 0 /\ exists v, vec (frange x) = Some v).
        { destruct (vec (frange x)) as [v|] eqn:Vx. 2:{ exfalso. unfold is_interval in C2. rewrite Vx in C2. destruct (vec r') eqn:Vr; [discriminate|]. assert (X0 : extra_cstr (frange x) = false) by (destruct R as [_ [_ R]]; now rewrite Vx in R). assert (X1 : extra_cstr r' = false) by (destruct R' as [_ [_ R']]; now rewrite Vr in R'). congruence. }
          split; [|eauto]. assert (N1 : vec (frange x) <> None) by (rewrite Vx; discriminate). destruct (inter_vec _ _ _ _ _ Er (or_intror N1)) as [s1 [s2 [P1 [P2 [Xe _]]]]].
          unfold sparse_copy in P2. rewrite Vx in P2. injection P2 as <-. destruct (extra_cstr (frange x)) eqn:X; [|rewrite andb_false_r in Xe; congruence]. rewrite andb_true_r in Xe.
          destruct (Z.eq_dec (rmin (frange x)) 0) as [Z0|Z0]; [exact Z0|exfalso]. destruct (Fk X Z0) as [F|[F1 F2]].
          - intros k K. assert (G : 0 <= k <= vmax) by (destruct K as [_ K]; rewrite Vx in K; exact (vin_range _ _ _ (rok_vec sz (frange x) v R Vx) K)). apply (M1 k (proj1 G) (or_intror (proj2 G))). apply Inc; [now apply Sub|lia].
          - destruct (vec r1) as [v1|] eqn:V1; [|destruct R1 as [_ [_ R1]]; rewrite V1 in R1; congruence]. unfold sparse_copy in P1. rewrite V1 in P1. injection P1 as <-. congruence.
          - destruct (sparse_copy_ok sz small junk r1 J R1) as [s2' [w2 [P3 [_ [_ [_ [_ [_ [_ P8]]]]]]]]]. rewrite P1 in P3. injection P3 as <-. destruct (P8 F1) as [_ [_ P9]]. rewrite P9 in Xe. apply Z.ltb_lt in F2. congruence. }
        destruct V0 as [V0 [v Vx]]. assert (Er0 : Range (extra_cstr r') 0 (rmax (frange x)) (vec (frange x)) = set_extra (frange x) (extra_cstr r')) by (rewrite <- V0; now destruct (frange x)). rewrite Er0. clear Er0.
        eexists. split; [reflexivity|]. rewrite C1. split; [|split]; cbn [success var warned propag frange].
        -- intros _. assert (Dx : forall k, rin (set_extra (frange x) (extra_cstr r')) k <-> dom x k) by (intros k; unfold rin; cbn; tauto). split; [|split; [|split]].
           ++ unfold fdv_ok. cbn [tagv frange nb_elem]. rewrite E. split.
              { now apply (rok_extra sz (frange x) v). }
              cbn [set_extra rmin rmax]. split; [lia|]. split; [lia|]. exists l. split; [|exact Hn]. destruct Ll as [S1 S2]. split; [exact S1|]. intros k. rewrite Dx. apply S2.
           ++ unfold events. cbn [frange set_extra rmin rmax extra_cstr tagv]. rewrite E. vm_compute Z.testbit. repeat split; intros; try lia; try discriminate; try tauto; auto.
           ++ exists (rmin (frange x)). apply Dx. apply rok_ends; [exact R|lia].
           ++ intros k K. apply Dx in K. split; [exact K|]. apply Inc. now apply Eqd.
        -- intros _ _ T M. unfold stands in M |- *. cbn [tagv frange]. rewrite E in *. intros k K V. cbn [set_extra extra_cstr] in V. rewrite <- (Mall T M k K V), Eqd. unfold rin. cbn. tauto.
        -- discriminate.
Qed.
Theorem Tell_Int_Range_ok x n r1 T1 : fdv_ok sz x -> tagv x = Some n -> rok sz r1 -> means sz r1 T1 -> exists t, Tell_Int_Range sz x r1 = Ret t /\ tell_ok sz x T1 t.
Proof.
  intros O E R1 M1. pose proof (bound x n O E) as B. unfold Tell_Int_Range. assert (Hn : rmin (frange x) = n) by (unfold fdv_ok in O; rewrite E in O; tauto). rewrite Hn. destruct (Test_Value_ok sz small r1 n R1) as [b [Eb Hb]]. rewrite Eb. cbn [bind].
  destruct b; cbn [negb andb].
  - assert (D : rin r1 n) by now apply Hb. eexists. split; [reflexivity|]. apply tell_same; auto.
    + exists n. now apply B.
    + intros k K K0. apply B in K. subst k. apply (means_rin r1); auto.
    + intros T M. unfold stands in *. rewrite E in *. intros k K. rewrite (M k K). split; [tauto|]. intros ->. split; [reflexivity|]. apply (means_rin r1); auto.
  - eexists. split; [reflexivity|]. apply tell_fail. intros W T M k K [Tk T1k]. unfold stands in M. rewrite E in M. apply (M k K) in Tk. subst k. assert (D : ~ rin r1 n) by (intros C; apply Hb in C; discriminate). apply D. apply M1; auto.
    destruct (extra_cstr r1); [right|now left]. rewrite andb_true_r in W. apply Z.ltb_ge in W. exact W.
Qed.
Theorem Tell_Range_ok junk a x r1 T1 : vok sz junk -> around_ok a -> fdv_ok sz x -> rok sz r1 -> means sz r1 T1 -> (tagv x = None -> flag_kept sz x r1) -> exists t, Tell_Range sz junk a x r1 = Ret t /\ tell_ok sz x T1 t.
Proof. intros. unfold Tell_Range. destruct (tagv x) as [n|] eqn:E; [now apply (Tell_Int_Range_ok x n)|apply Tell_Range_Range_ok; auto]. Qed.
Theorem Tell_Interval_ok junk a x lo hi : vok sz junk -> around_ok a -> fdv_ok sz x -> INT_MIN < lo <= INT_MAX -> is_int hi -> (tagv x = None -> flag_kept sz x (Range false lo hi None)) -> exists t, Tell_Interval sz junk a x lo hi = Ret t /\ tell_ok sz x (fun k => lo <= k <= hi) t.
Proof.
  intros J A O Hl Hh Fk. unfold Tell_Interval. destruct (tagv x) as [n|] eqn:E.
  - pose proof (bound x n O E) as B. assert (Hn : rmin (frange x) = n) by (unfold fdv_ok in O; rewrite E in O; tauto). rewrite Hn. eexists. split; [reflexivity|]. destruct (Z.leb_spec lo n), (Z.leb_spec n hi); cbn [andb].
    2-4: apply tell_fail; intros _ T M k K [Tk Rk]; unfold stands in M; rewrite E in M; apply (M k K) in Tk; lia.
    apply tell_same; auto.
    + exists n. now apply B.
    + intros k K _. apply B in K. lia.
    + intros T M. unfold stands in *. rewrite E in *. intros k K. rewrite (M k K). lia.
  - unfold is_interval. destruct (vec (frange x)) eqn:V; [|now apply Tell_Interv_Interv_ok]. apply Tell_Range_Range_ok; auto.
    + split; [exact Hl|]. split; [exact Hh|reflexivity].
    + intros k _ _. unfold rin. cbn. tauto.
Qed.
(** ** Removing a value *)
Lemma rin_dec r k : {rin r k} + {~ rin r k}.
Proof.
  unfold rin. destruct (Z_le_dec (rmin r) k), (Z_le_dec k (rmax r)); try (right; lia). destruct (vec r) as [v|]; [|left; split; [lia|exact I]]. destruct (vin v k); [left; split; [lia|reflexivity]|right; intros [_ C]; discriminate].
Qed.
Lemma events_trans x y z m m' : events x y m -> events y z m' -> tagv x = None -> tagv y = None ->
  rmin (frange x) <= rmin (frange y) <= rmin (frange z) -> rmax (frange z) <= rmax (frange y) <= rmax (frange x) -> (forall k, dom z k -> dom y k) -> (forall k, dom y k -> dom x k) ->
  extra_cstr (frange z) = extra_cstr (frange y) -> events x z (Z.lor m m').
Proof.
  intros [A0 [A1 [A2 [A3 A4]]]] [B0 [B1 [B2 [B3 B4]]]] Tx Ty L1 L2 D1 D2 X. unfold events. rewrite !Z.lor_spec, !orb_true_iff, A0, A1, A2, A3, A4, B0, B1, B2, B3, B4. clear A0 A1 A2 A3 A4 B0 B1 B2 B3 B4. rewrite X, Tx, Ty.
  assert (P3 : ((exists k, dom x k /\ ~ dom y k) \/ extra_cstr (frange x) <> extra_cstr (frange y)) \/ ((exists k, dom y k /\ ~ dom z k) \/ extra_cstr (frange y) <> extra_cstr (frange y)) <-> (exists k, dom x k /\ ~ dom z k) \/ extra_cstr (frange x) <> extra_cstr (frange y)).
  { split.
    - intros [[[k [K1 K2]]|C]|[[k [K1 K2]]|C]]; [left; exists k; auto|now right|left; exists k; auto|congruence].
    - intros [[k [K1 K2]]|C]; [|left; now right]. destruct (rin_dec (frange y) k); [right|left]; left; exists k; auto. }
  clear D1 D2.
  split; [clear P3; lia|]. split; [clear P3; lia|]. split; [clear P3; lia|]. split; [exact P3|]. clear P3.
  split; [intros [[_ C]|C]; [now destruct C|exact C]|intros C; now right].
Qed.
Notation inside x n := (is_interval (frange x) && negb (n =? rmin (frange x)) && negb (n =? rmax (frange x))).
Definition with_mask (t : told) (m : Z) : told := Told (success t) (var t) (warned t) (Z.lor m (propag t)).
Lemma tnv_step junk a0 x n : around_ok a0 -> fdv_ok sz x -> is_int n -> inside x n = false -> (extra_cstr (frange x) = true -> tagv x = None -> dom x n -> nb_elem x <> 2) ->
  exists t0, tell_ok sz x (fun k => k <> n) t0 /\ extra_cstr (frange (var t0)) = extra_cstr (frange x) /\ forall fuel m, tell_not_value sz junk (S fuel) x n m = Ret (with_mask t0 m).
Proof.
  intros A0 O Hn Ins Hx. destruct (test_var x n O) as [b [Eb Hb]]. destruct b.
  2: { exists (Told true x false 0). assert (D : ~ dom x n) by (intros C; apply Hb in C; discriminate). split; [|split; [reflexivity|intros fuel m; cbn [tell_not_value]; rewrite Eb; cbn [bind negb]; unfold with_mask; cbn; now rewrite Z.lor_0_r]].
    apply tell_same; auto.
    - unfold fdv_ok in O. destruct (tagv x) as [j|] eqn:E; [exists j; apply (bound x j); auto; unfold fdv_ok; now rewrite E|]. exists (rmin (frange x)). apply rok_ends; [tauto|lia].
    - intros k K _ ->. tauto.
    - intros T M. unfold stands in *. destruct (tagv x) as [j|] eqn:E.
      + intros k K. rewrite (M k K). split; [tauto|]. intros ->. split; [reflexivity|]. intros ->. apply D. now apply (bound x n O E).
      + intros k K V. rewrite (M k K V). split; [|tauto]. intros C. split; [exact C|]. intros ->. apply D. now apply (M n K V). }
  assert (D : dom x n) by now apply Hb. destruct (tagv x) as [j|] eqn:E.
  { exists (Told false x (extra_cstr (frange x)) 0). split; [|split; [reflexivity|intros fuel m; cbn [tell_not_value]; rewrite Eb; cbn [bind negb]; rewrite E; unfold with_mask; cbn; now rewrite Z.lor_0_r]].
    apply tell_fail. intros _ T M k K [Tk Rk]. unfold stands in M. rewrite E in M. apply (M k K) in Tk. apply Rk. subst k. symmetry. now apply (bound x j O E). }
  destruct (unbound x O E) as [R [L [Lm [l [Ll Hnb]]]]]. destruct (rok_ends _ R ltac:(lia)) as [E1 E2].
  assert (Bn : rmin (frange x) <= n <= rmax (frange x)) by apply D.
  destruct (Z.eqb_spec (nb_elem x) 2) as [N2|N2].
  - assert (X : extra_cstr (frange x) = false) by (destruct (extra_cstr (frange x)); [specialize (Hx eq_refl eq_refl D); lia|reflexivity]).
    pose proof (proj1 (card_pair _ _ _ _ Ll (proj2 L) E1 E2) ltac:(lia)) as Two. set (v := if n =? rmin (frange x) then rmax (frange x) else rmin (frange x)).
    assert (Dv : dom x v) by (unfold v; destruct (n =? rmin (frange x)); auto).
    destruct (from_int_ok x v O E Dv) as [F1 [F2 [F3 F4]]]. destruct (Update_Range_From_Int x v) as [x' m0] eqn:Ui. cbn [fst snd] in *. exists (Told true x' false m0).
    assert (Nv : forall k, dom x k -> (k <> n <-> k = v)). { intros k K. destruct (Two n D), (Two k K); unfold v; destruct (Z.eqb_spec n (rmin (frange x))); lia. }
    split; [|split; [exact F4|]].
    + split; [|split]; cbn [success var warned propag].
      * intros _. split; [exact F1|]. split; [exact F2|]. split; [exists v; now apply F3|]. intros k K. apply F3 in K. subst k. split; [exact Dv|]. intros _. now apply Nv.
      * intros _ _ T M. apply (stands_int x x' v); [now rewrite Ui|]. unfold stands in M. rewrite E in M. intros k K. rewrite <- (M k K (or_introl X)). split; [intros [C1 C2]; now apply Nv|]. intros ->. split; [exact Dv|now apply Nv].
      * discriminate.
    + intros fuel m. cbn [tell_not_value]. rewrite Eb. cbn [bind negb]. rewrite E, Ins, N2. cbn [Z.eqb Pos.eqb]. fold v. rewrite Ui. reflexivity.
  - (* three values or more *)
    assert (N3 : ~ (forall k, dom x k -> k = rmin (frange x) \/ k = rmax (frange x))) by (intros C; apply (proj2 (card_pair _ _ _ _ Ll (proj2 L) E1 E2)) in C; lia).
    (* what remains to show once the new range is known *)
    assert (Fin : forall r' m0, rok sz r' -> extra_cstr r' = extra_cstr (frange x) -> (forall k, rin r' k <-> k <> n /\ dom x k) -> rmin r' < rmax r' ->
              (m0 = Z.lor MASK_DOM (if n =? rmin (frange x) then Z.lor MASK_MIN MASK_MIN_MAX else if n =? rmax (frange x) then Z.lor MASK_MAX MASK_MIN_MAX else 0)) ->
              tell_ok sz x (fun k => k <> n) (Told true (Fdv None (nb_elem x - 1) r') false m0)).
    { intros r' m0 R' X' D' L' Em. destruct (rok_ends r' R' ltac:(lia)) as [G1 G2]. destruct (has_listing r' R' ltac:(lia)) as [l' Hl']. pose proof (card_one_less _ _ _ _ n Ll Hl' D D') as Cn.
      assert (B1 : rmin (frange x) <= rmin r' /\ rmax r' <= rmax (frange x)) by (apply D' in G1, G2; destruct G1 as [_ [G1 _]], G2 as [_ [G2 _]]; lia).
      assert (C1 : rmin (frange x) = rmin r' <-> n <> rmin (frange x)). { split; [intros C ->; rewrite <- C in G1; apply D' in G1; tauto|]. intros C. assert (rin r' (rmin (frange x))) as [G _] by (apply D'; auto). lia. }
      assert (C2 : rmax (frange x) = rmax r' <-> n <> rmax (frange x)). { split; [intros C ->; rewrite <- C in G2; apply D' in G2; tauto|]. intros C. assert (rin r' (rmax (frange x))) as [G _] by (apply D'; auto). lia. }
      split; [|split]; cbn [success var warned propag frange].
      - intros _. split; [|split; [|split]].
        + unfold fdv_ok. cbn [tagv frange nb_elem]. split; [exact R'|]. split; [lia|]. split; [lia|]. exists l'. split; [exact Hl'|lia].
        + unfold events. cbn [frange tagv]. rewrite E, X'. assert (Ch : exists k, dom x k /\ ~ rin r' k) by (exists n; split; [exact D|]; rewrite D'; tauto).
          subst m0. destruct (Z.eqb_spec n (rmin (frange x))), (Z.eqb_spec n (rmax (frange x))); try lia; vm_compute Z.testbit; repeat split; intros; try lia; try reflexivity; try discriminate; try tauto; auto.
        + eauto.
        + intros k K. apply D' in K. tauto.
      - intros _ _ T M. unfold stands in M |- *. cbn [tagv frange]. rewrite E in M. intros k K V. rewrite X' in V. rewrite D', (M k K V). tauto.
      - discriminate. }
    destruct (vec (frange x)) as [v|] eqn:V.
    + (* a vector *)
      assert (Vv := rok_vec sz _ v R V). assert (Bd := rok_bounds sz _ v R V ltac:(lia)). assert (Dv : forall k, dom x k <-> vin v k = true) by (intros k; apply (rok_rin sz _ v); auto; lia).
      destruct (Reset_ok sz small v n Vv ltac:(lia)) as [v' [Ev' [Vo' Hv']]].
      assert (Hvk : forall k, vin v' k = true <-> k <> n /\ dom x k) by (intros k; rewrite Hv', Dv, andb_true_iff, negb_true_iff, Z.eqb_neq; tauto).
      (* the range of the new vector *)
      destruct (From_Vector_ok sz small a0 (extra_cstr (frange x)) 0 0 v' A0 Vo' ltac:(ints)) as [r' [_ [F2 [F3 [F4 F5]]]]].
      assert (Third : exists k, dom x k /\ k <> rmin (frange x) /\ k <> rmax (frange x)).
      { destruct (List.forallb (fun k => (k =? rmin (frange x)) || (k =? rmax (frange x))) l) eqn:F.
        - exfalso. apply N3. intros k K. apply (proj2 Ll) in K. rewrite forallb_forall in F. specialize (F k K). apply orb_true_iff in F. rewrite !Z.eqb_eq in F. exact F.
        - assert (Ex : exists k, In k l /\ (k =? rmin (frange x)) || (k =? rmax (frange x)) = false). { clear - F. induction l as [|c l IH]; [discriminate|]. cbn [forallb] in F. destruct ((c =? rmin (frange x)) || (c =? rmax (frange x))) eqn:Q; [|exists c; split; [now left|exact Q]]. cbn in F. destruct (IH F) as [k [K1 K2]]. exists k. split; [now right|exact K2]. }
          destruct Ex as [k [K1 K2]]. apply orb_false_iff in K2. rewrite !Z.eqb_neq in K2. exists k. split; [now apply (proj2 Ll)|exact K2]. }
      destruct Third as [k0 [K0 [K1 K2]]]. assert (Bk0 : rmin (frange x) <= k0 <= rmax (frange x)) by apply K0.
      assert (Two : exists p q, rin r' p /\ rin r' q /\ p < q).
      { destruct (Z.eq_dec n (rmin (frange x))) as [Q|Q]; [exists k0, (rmax (frange x))|].
        - rewrite !F5, !Hvk. split; [split; [lia|exact K0]|]. split; [split; [lia|exact E2]|lia].
        - destruct (Z.eq_dec n (rmax (frange x))) as [Q'|Q']; [exists (rmin (frange x)), k0|exists (rmin (frange x)), (rmax (frange x))]; rewrite !F5, !Hvk; (split; [split; [lia|assumption]|]); (split; [split; [lia|assumption]|lia]). }
      assert (Lr : rmin r' < rmax r') by (destruct Two as [p [q [[P _] [[Q _] PQ]]]]; lia). destruct (rok_ends r' F4 ltac:(lia)) as [G1 G2].
      assert (D' : forall k, rin r' k <-> k <> n /\ dom x k) by (intros k; now rewrite F5, Hvk).
      assert (Na : Vector_Next_After sz v' n = Range_Next_After sz r' n) by (unfold Range_Next_After, Is_Empty; destruct (Z.ltb_spec (rmax r') (rmin r')); [lia|]; now rewrite F2).
      assert (Nb : Vector_Next_Before sz v' n = Range_Next_Before sz r' n) by (unfold Range_Next_Before, Is_Empty; destruct (Z.ltb_spec (rmax r') (rmin r')); [lia|]; now rewrite F2).
      assert (Rr : forall p q, p = rmin r' -> q = rmax r' -> Range (extra_cstr (frange x)) p q (Some v') = r') by (intros p q -> ->; rewrite <- F2, <- F3; now destruct r').
      assert (Keep1 : n <> rmin (frange x) -> rmin (frange x) = rmin r'). { intros C. assert (rin r' (rmin (frange x))) as [G _] by (apply D'; auto). apply D' in G1. destruct G1 as [_ [G1 _]]. lia. }
      assert (Keep2 : n <> rmax (frange x) -> rmax (frange x) = rmax r'). { intros C. assert (rin r' (rmax (frange x))) as [G _] by (apply D'; auto). apply D' in G2. destruct G2 as [_ [G2 _]]. lia. }
      exists (Told true (Fdv None (nb_elem x - 1) r') false (Z.lor MASK_DOM (if n =? rmin (frange x) then Z.lor MASK_MIN MASK_MIN_MAX else if n =? rmax (frange x) then Z.lor MASK_MAX MASK_MIN_MAX else 0))).
      split; [|split].
      * apply (Fin r'); auto.
      * exact F3.
      * intros fuel m. cbn [tell_not_value]. rewrite Eb. cbn [bind negb]. rewrite E, Ins. apply Z.eqb_neq in N2. rewrite N2. rewrite V, Ev'. cbn [bind]. unfold with_mask. cbn [success var warned propag].
        destruct (Z.eqb_spec n (rmin (frange x))) as [Q|Q].
        -- destruct (Next_After_ok sz small r' n F4 ltac:(lia) Hn) as [p [Ep Hp]]. rewrite Na, Ep. cbn [bind]. rewrite (Rr p (rmax (frange x))); [reflexivity| |apply Keep2; lia].
           destruct Hp as [[P1 [P2 P3]]|[_ P]]; [|specialize (P _ G2); pose proof (proj1 G1); apply D' in G1; destruct G1 as [G1a [G1b _]]; lia].
           assert (n < rmin r') by (apply D' in G1; destruct G1 as [G1a [G1b _]]; lia). specialize (P3 _ G1 H). destruct P1 as [P1 _]. lia.
        -- destruct (Z.eqb_spec n (rmax (frange x))) as [Q'|Q'].
           ++ destruct (Next_Before_ok sz small r' n F4 ltac:(lia) Hn) as [q [Eq Hq]]. rewrite Nb, Eq. cbn [bind]. rewrite (Rr (rmin (frange x)) q); [reflexivity|apply Keep1; lia|].
              assert (rmax r' < n) by (apply D' in G2; destruct G2 as [G2a [G2b _]]; lia).
              destruct Hq as [[P1 [P2 P3]]|[_ P]]; [|specialize (P _ G2); lia]. specialize (P3 _ G2 H). destruct P1 as [P1 _]. lia.
           ++ rewrite (Rr (rmin (frange x)) (rmax (frange x))); [reflexivity|apply Keep1; lia|apply Keep2; lia].
    + (* an interval *)
      assert (X : extra_cstr (frange x) = false) by (destruct R as [_ [_ R]]; now rewrite V in R). pose proof (interval_dom x V) as Di.
      assert (L3 : rmin (frange x) + 1 < rmax (frange x)). { destruct (Z_lt_le_dec (rmin (frange x) + 1) (rmax (frange x))); [assumption|]. exfalso. apply N3. intros k K. apply Di in K. lia. }
      unfold is_interval in Ins. rewrite V in Ins. cbn [andb] in Ins.
      destruct (Z.eqb_spec n (rmin (frange x))) as [Q|Q].
      * eexists. split; [|split]; [apply (Fin (Range (extra_cstr (frange x)) (n + 1) (rmax (frange x)) None))|reflexivity|].
        -- split; [cbn [rmin]; ints|]. split; [cbn [rmax]; ints|exact X].
        -- reflexivity.
        -- intros k. rewrite Di. unfold rin. cbn. lia.
        -- cbn. lia.
        -- reflexivity.
        -- intros fuel m. cbn [tell_not_value]. rewrite Eb. cbn [bind negb]. rewrite E. unfold is_interval. rewrite V, <- Q, Z.eqb_refl. cbn [negb andb]. apply Z.eqb_neq in N2. rewrite N2. cbn [bind]. rewrite (ck_ok (n + 1)) by ints. reflexivity.
      * cbn [negb andb] in Ins. apply negb_false_iff, Z.eqb_eq in Ins.
        eexists. split; [|split]; [apply (Fin (Range (extra_cstr (frange x)) (rmin (frange x)) (n - 1) None))|reflexivity|].
        -- split; [cbn [rmin]; ints|]. split; [cbn [rmax]; ints|exact X].
        -- reflexivity.
        -- intros k. rewrite Di. unfold rin. cbn. lia.
        -- cbn. lia.
        -- reflexivity.
        -- intros fuel m. cbn [tell_not_value]. rewrite Eb. cbn [bind negb]. rewrite E. unfold is_interval. rewrite V. apply Z.eqb_neq in Q. rewrite Q. rewrite <- Ins, Z.eqb_refl. cbn [negb andb]. apply Z.eqb_neq in N2. rewrite N2. cbn [bind]. rewrite (ck_ok (n - 1)) by ints. reflexivity.
Qed.
Lemma Tell_Not_Value_a junk a0 x n : around_ok a0 -> vok sz junk -> fdv_ok sz x -> is_int n -> (extra_cstr (frange x) = true -> tagv x = None -> dom x n -> nb_elem x <> 2) ->
  ~ (tagv x = None /\ vec (frange x) = None /\ rmin (frange x) = vmax - 1 /\ n = vmax /\ vmax < rmax (frange x)) ->
  exists t, Tell_Not_Value sz junk x n = Ret t /\ tell_ok sz x (fun k => k <> n) t.
Proof.
  intros A0 J O Hn Hx Hb. unfold Tell_Not_Value. destruct (inside x n) eqn:Ins.
  2: { destruct (tnv_step junk a0 x n A0 O Hn Ins) as [t0 [T1 [T2 T3]]]; [exact Hx|]. rewrite T3. eexists. split; [reflexivity|]. unfold with_mask. rewrite Z.lor_0_l. now destruct t0. }
  assert (V : vec (frange x) = None) by (unfold is_interval in Ins; destruct (vec (frange x)); [discriminate|reflexivity]).
  destruct (test_var x n O) as [b [Eb Hb0]]. destruct b.
  2: { eexists. split; [cbn [tell_not_value]; rewrite Eb; reflexivity|]. assert (D : ~ dom x n) by (intros C; apply Hb0 in C; discriminate). apply tell_same; auto.
    - unfold fdv_ok in O. destruct (tagv x) as [j|] eqn:E; [exists j; apply (bound x j); auto; unfold fdv_ok; now rewrite E|]. exists (rmin (frange x)). apply rok_ends; [tauto|lia].
    - intros k K _ ->. tauto.
    - intros T M. unfold stands in *. destruct (tagv x) as [j|] eqn:E.
      + intros k K. rewrite (M k K). split; [tauto|]. intros ->. split; [reflexivity|]. intros ->. apply D. now apply (bound x n O E).
      + intros k K W. rewrite (M k K W). split; [|tauto]. intros C. split; [exact C|]. intros ->. apply D. now apply (M n K W). }
  assert (D : dom x n) by now apply Hb0. pose proof (interval_dom x V) as Di. assert (Bn := proj1 (Di n) D). rewrite !andb_true_iff, !negb_true_iff, !Z.eqb_neq in Ins. destruct Ins as [[In0 In1] In2].
  destruct (tagv x) as [j|] eqn:E.
  { exfalso. unfold fdv_ok in O. rewrite E in O. destruct O as [_ [A1 [A2 _]]]. lia. }
  destruct (unbound x O E) as [R [L [Lm _]]]. assert (X : extra_cstr (frange x) = false) by (destruct R as [_ [_ R]]; now rewrite V in R).
  remember 1%nat as one eqn:H1. cbn [tell_not_value]. rewrite Eb. cbn [bind negb]. rewrite E, In0. apply Z.eqb_neq in In1, In2. rewrite In1, In2. apply Z.eqb_neq in In1, In2. cbn [negb andb].
  destruct (Z.ltb_spec vmax (rmin (frange x))). { eexists. split; [reflexivity|]. apply tell_fail. discriminate. }
  destruct (Z.eqb_spec (rmin (frange x)) vmax) as [Q|Q].
  { destruct (from_int_ok x (rmin (frange x)) O E) as [F1 [F2 [F3 F4]]]; [apply Di; lia|]. destruct (Update_Range_From_Int x (rmin (frange x))) as [x' m] eqn:Ui. cbn [fst snd] in *. eexists. split; [reflexivity|]. split; [|split]; cbn [success var warned propag].
    - intros _. split; [exact F1|]. split; [exact F2|]. split; [exists (rmin (frange x)); now apply F3|]. intros k K. apply F3 in K. subst k. split; [apply Di; lia|]. lia.
    - discriminate.
    - discriminate. }
  destruct (sparse_copy_ok sz small junk (frange x) J R) as [r' [v' [S1 [S2 [S3 [S4 [S5 [_ [_ S8]]]]]]]]]. unfold sparse_copy in S1. rewrite V in S1. rewrite S1. cbn [bind]. destruct (S8 V) as [S9 [S10 S11]].
  assert (Er : rmin r' = rmin (frange x)) by lia. assert (Lr : rmin r' < rmax r') by lia. assert (Bv : 0 <= rmin r' /\ rmax r' <= vmax) by lia.
  rewrite (ck_ok (rmax r' - rmin r')) by ints. cbn [bind]. rewrite (ck_ok (rmax r' - rmin r' + 1)) by ints. cbn [bind].
  set (y := Fdv None (rmax r' - rmin r' + 1) r').
  assert (Dy : forall k, dom y k <-> rmin r' <= k <= rmax r') by (intros k; unfold y; cbn [frange]; rewrite S5, Di, Er; lia).
  assert (Oy : fdv_ok sz y).
  { unfold fdv_ok, y. cbn [tagv frange nb_elem]. split; [exact S3|]. split; [lia|]. split; [lia|]. exists (zseq (rmin r') (Z.to_nat (rmax r' - rmin r' + 1))). split.
    - destruct (interval_listing sz (Range false (rmin r') (rmax r') None)) as [Z1 Z2]; [split; [cbn [rmin]; ints|]; split; [cbn [rmax]; ints|reflexivity]|reflexivity|]. cbn [rmin rmax] in *. split; [exact Z1|]. intros k. specialize (Dy k). unfold y in Dy. cbn [frange] in Dy. rewrite Dy, Z2. unfold rin. cbn. tauto.
    - unfold zseq. rewrite map_length, seq_length. lia. }
  assert (Iy : inside y n = false) by (unfold y, is_interval; cbn [frange]; rewrite S2; reflexivity).
  destruct (tnv_step junk a0 y n A0 Oy Hn Iy) as [t0 [T1 [T2 T3]]].
  { unfold y. cbn [frange nb_elem]. rewrite S11. intros C _ Dn C2. apply Z.ltb_lt in C. apply Hb. rewrite S5 in Dn. repeat split; auto; lia. }
  subst one. rewrite T3. eexists. split; [reflexivity|]. unfold with_mask. set (m := if extra_cstr r' then _ else 0).
  assert (Ev : events x y m).
  { unfold events, y, m. cbn [frange tagv]. rewrite E, X, S11, Er, S10. destruct (Z.ltb_spec vmax (rmax (frange x))).
    - assert (Ch : exists k, dom x k /\ ~ rin r' k) by (exists (rmax (frange x)); split; [apply Di; lia|]; rewrite S5; lia). vm_compute Z.testbit. repeat split; intros; try lia; try reflexivity; try discriminate; try tauto; auto.
    - rewrite !Z.bits_0. repeat split; intros; try lia; try discriminate; try tauto. destruct H1 as [[k [K1 K2]]|C]; [|congruence]. exfalso. apply K2. rewrite S5. apply Di in K1. split; [lia|]. apply Di. exact K1. }
  destruct T1 as [U1 [U2 U3]]. split; [|split]; cbn [success var warned propag].
  - intros Su. destruct (U1 Su) as [W1 [W2 [W3 W4]]]. split; [exact W1|]. split; [|split; [exact W3|]].
    + apply (events_trans x y); auto.
      * assert (B : forall k, dom (var t0) k -> rmin (frange y) <= k) by (intros k K; apply W4 in K; destruct K as [[K _] _]; lia). unfold y at 1 2. cbn [frange]. rewrite Er. split; [lia|].
        unfold fdv_ok in W1. destruct (tagv (var t0)) as [j|] eqn:Ej.
        -- destruct W1 as [_ [Z1 [Z2 [Z3 _]]]]. specialize (B j). unfold y in B. cbn [frange] in B. rewrite <- Er, Z1. apply B. unfold rin. rewrite Z1, Z2, Z3. split; [lia|exact I].
        -- destruct W1 as [Z1 [Z2 _]]. specialize (B (rmin (frange (var t0)))). unfold y in B. cbn [frange] in B. rewrite <- Er. apply B. apply rok_ends; [exact Z1|lia].
      * assert (B : forall k, dom (var t0) k -> k <= rmax (frange y)) by (intros k K; apply W4 in K; destruct K as [[K _] _]; lia). split; [|unfold y; cbn [frange]; lia].
        unfold fdv_ok in W1. destruct (tagv (var t0)) as [j|] eqn:Ej.
        -- destruct W1 as [_ [Z1 [Z2 [Z3 _]]]]. specialize (B j). rewrite Z2. apply B. unfold rin. rewrite Z1, Z2, Z3. split; [lia|exact I].
        -- destruct W1 as [Z1 [Z2 _]]. specialize (B (rmax (frange (var t0)))). apply B. apply rok_ends; [exact Z1|lia].
      * intros k K. now apply W4.
      * intros k K. apply Dy in K. apply Di. lia.
    + intros k K. destruct (W4 k K) as [K1 K2]. split; [|exact K2]. apply Di. apply Dy in K1. lia.
  - intros Wn Su T M. apply (U2 Wn Su). unfold stands in M |- *. rewrite E in M. unfold y. cbn [tagv frange]. now apply S4.
  - intros Wn Su T M. apply (U3 Wn Su). unfold stands in M |- *. rewrite E in M. unfold y. cbn [tagv frange]. now apply S4.
Qed.
Theorem Tell_Not_Value_ok junk x n : vok sz junk -> fdv_ok sz x -> is_int n -> (extra_cstr (frange x) = true -> tagv x = None -> dom x n -> nb_elem x <> 2) ->
  ~ (tagv x = None /\ vec (frange x) = None /\ rmin (frange x) = vmax - 1 /\ n = vmax /\ vmax < rmax (frange x)) ->
  exists t, Tell_Not_Value sz junk x n = Ret t /\ tell_ok sz x (fun k => k <> n) t.
Proof. intros. apply (Tell_Not_Value_a junk (Around 0 [])); auto. split; [cbn; lia|now left]. Qed.
(** ** Booleans, fd_domain and unification *)
Lemma tell_ok_ext x (R R' : Z -> Prop) t : fdv_ok sz x -> tagv x = None -> (forall k, 0 <= k -> dom x k -> (R k <-> R' k)) -> (forall k, 0 <= k -> R k \/ R' k -> extra_cstr (frange x) = false \/ k <= vmax) ->
  tell_ok sz x R t -> tell_ok sz x R' t.
Proof.
  intros O E H1 H2 [A [B C]].
  assert (Q : forall T, stands sz x T -> forall k, 0 <= k -> (T k /\ R k <-> T k /\ R' k)).
  { intros T M k K. unfold stands in M. rewrite E in M. split; intros [Tk Rk].
    - assert (D : dom x k) by (apply (M k K (H2 k K (or_introl Rk))); exact Tk). split; [exact Tk|]. now apply (H1 k K D).
    - assert (D : dom x k) by (apply (M k K (H2 k K (or_intror Rk))); exact Tk). split; [exact Tk|]. now apply (H1 k K D). }
  split; [|split].
  - intros Su. destruct (A Su) as [A1 [A2 [A3 A4]]]. repeat (split; [assumption|]). intros k K. destruct (A4 k K) as [K1 K2]. split; [exact K1|]. intros K0. apply (H1 k K0 K1). auto.
  - intros W Su T M. specialize (B W Su T M). unfold stands in B |- *. destruct (tagv (var t)).
    + intros k K. rewrite <- (B k K). symmetry. now apply Q.
    + intros k K V. rewrite (B k K V). now apply Q.
  - intros W Su T M k K X. apply (C W Su T M k K). now apply (Q T M k K).
Qed.
Theorem Check_For_Bool_ok junk a x : vok sz junk -> around_ok a -> fdv_ok sz x -> tagv x = None -> exists t, Check_For_Bool_Var sz junk a x = Ret t /\ tell_ok sz x (fun k => 0 <= k <= 1) t.
Proof.
  intros J A O E. destruct (unbound x O E) as [R [L [Lm _]]]. destruct (rok_ends _ R ltac:(lia)) as [E1 E2].
  assert (Low : extra_cstr (frange x) = false \/ 1 <= vmax).
  { destruct (vec (frange x)) as [v|] eqn:V; [|left; destruct R as [_ [_ R]]; now rewrite V in R]. right. pose proof (rok_bounds sz _ v R V ltac:(lia)). lia. }
  assert (Low' : forall k, k <= 1 -> extra_cstr (frange x) = false \/ k <= vmax) by (intros; destruct Low; [now left|right; lia]).
  unfold Check_For_Bool_Var. destruct (Z.ltb_spec 1 (rmin (frange x))).
  { eexists. split; [reflexivity|]. apply tell_fail. intros _ T M k K [Tk Rk]. unfold stands in M. rewrite E in M. apply (M k K (Low' k ltac:(lia))) in Tk. destruct Tk as [Tk _]. lia. }
  destruct (Z.leb_spec (rmax (frange x)) 1).
  { eexists. split; [reflexivity|]. apply tell_same; auto.
    - eauto.
    - intros k [K _] _. lia.
    - intros T M. unfold stands in *. rewrite E in *. intros k K V. rewrite (M k K V). split; [|tauto]. intros Tk. split; [exact Tk|]. apply (M k K V) in Tk. destruct Tk as [Tk _]. lia. }
  destruct (Z.eqb_spec (rmin (frange x)) 1) as [Q|Q].
  { destruct (Tell_Value_ok x 1 O ltac:(ints)) as [t [Et Ht]]. exists t. split; [exact Et|]. revert Ht. apply tell_ok_ext; auto.
    - intros k K [D _]. lia.
    - intros k K C. apply Low'. lia. }
  destruct (Test_Value_ok sz small (frange x) 1 R) as [b [Eb Hb]]. rewrite Eb. cbn [bind]. destruct b; cbn [negb].
  2: { destruct (Tell_Value_ok x 0 O ltac:(ints)) as [t [Et Ht]]. exists t. split; [exact Et|]. revert Ht. apply tell_ok_ext; auto.
    - intros k K D. split; [lia|]. intros C. destruct (Z.eq_dec k 1) as [->|]; [|lia]. apply Hb in D. discriminate.
    - intros k K C. apply Low'. lia. }
  unfold is_interval. destruct (vec (frange x)) eqn:V.
  - apply Tell_Range_Range_ok; auto.
    + split; [cbn [rmin Range_Interval]; ints|]. split; [cbn [rmax Range_Interval]; ints|reflexivity].
    + intros k _ _. unfold rin. cbn. tauto.
    + intros _ C. exfalso. apply C. assert (Dx : dom x (rmin (frange x))) by (apply rok_ends; [exact R|lia]). destruct Dx as [Dx _]. lia.
  - apply Tell_Interv_Interv_ok; auto; ints.
Qed.
Theorem Unify_With_Integer_ok x v : fdv_ok sz x -> is_int v -> exists t, Unify_With_Integer sz x v = Ret t /\ tell_ok sz x (fun k => k = v) t.
Proof. intros O V. unfold Unify_With_Integer. rewrite to_int_ok by exact V. now apply Tell_Value_ok. Qed.
Theorem Unify_With_Integer_iff x v : fdv_ok sz x -> is_int v -> exists t, Unify_With_Integer sz x v = Ret t /\ (success t = true <-> dom x v) /\ tell_ok sz x (fun k => k = v) t.
Proof.
  intros O V. destruct (Unify_With_Integer_ok x v O V) as [t [Et Ht]]. exists t. split; [exact Et|]. split; [|exact Ht]. unfold Unify_With_Integer, Tell_Value in Et. rewrite to_int_ok in Et by exact V. destruct (test_var x v O) as [b [Eb Hb]]. rewrite Eb in Et. cbn [bind] in Et. rewrite <- Hb.
  destruct b; cbn [negb] in Et; [|injection Et as <-; cbn; split; discriminate]. destruct (tagv x); [injection Et as <-; cbn; tauto|]. destruct (Update_Range_From_Int x v) as [x' m]. injection Et as <-. cbn. tauto.
Qed.
Lemma New_Variable_ok lo hi : 0 <= lo < hi -> hi <= IMAX -> fdv_ok sz (New_Variable_Interval lo hi).
Proof.
  intros L H. unfold fdv_ok, New_Variable_Interval. cbn [tagv frange nb_elem Range_Interval rmin rmax]. assert (R : rok sz (Range_Interval lo hi)) by (split; [cbn [rmin Range_Interval]; ints|]; split; [cbn [rmax Range_Interval]; ints|reflexivity]).
  split; [exact R|]. split; [lia|]. split; [exact H|]. eexists. split; [exact (interval_listing sz (Range_Interval lo hi) R eq_refl)|]. cbn [rmin rmax Range_Interval]. unfold zseq. rewrite map_length, seq_length. lia.
Qed.
Lemma ptv v : v <= IMAX -> Prolog_To_Value v = Z.max (- IMAX) v.
Proof. clear small. intros H. unfold Prolog_To_Value. destruct (Z.ltb_spec v (- IMAX)); [destruct (Z.ltb_spec IMAX (- IMAX))|destruct (Z.ltb_spec IMAX v)]; ints. Qed.
(** fd_domain(X, L, U) when the bounds are not above fd_max_integer *)
Theorem Domain_Var_3_ok junk a x l u : vok sz junk -> around_ok a -> (forall y, x = AFd y -> fdv_ok sz y /\ (tagv y = None -> flag_kept sz y (Range false l u None))) -> l <= IMAX -> u <= IMAX ->
  exists o, Domain_Var_3 sz junk a x l u = Ret o /\
  match x with
  | AVar => match o with
            | None => forall k, 0 <= k -> ~ l <= k <= u
            | Some (AInt n) => forall k, 0 <= k -> (l <= k <= u <-> k = n)
            | Some (AFd y) => fdv_ok sz y /\ tagv y = None /\ stands sz y (fun k => l <= k <= u)
            | Some AVar => False
            end
  | AInt v => o = if (0 <=? v) && (l <=? v) && (v <=? u) then Some (AInt v) else None
  | AFd y => exists t, tell_ok sz y (fun k => l <= k <= u) t /\ o = if success t then Some (AFd (var t)) else None
  end.
Proof.
  intros J A O Hl Hu. unfold Domain_Var_3.
  set (lo := if Prolog_To_Value l <? 0 then 0 else Prolog_To_Value l). set (hi := Prolog_To_Value u).
  assert (Blo : lo = Z.max 0 l) by (unfold lo; rewrite (ptv l Hl); destruct (Z.ltb_spec (Z.max (- IMAX) l) 0); ints).
  assert (Bhi : hi = Z.max (- IMAX) u) by (exact (ptv u Hu)).
  clearbody lo hi. assert (Eq : forall k, 0 <= k -> (lo <= k <= hi <-> l <= k <= u)) by (intros k; ints).
  destruct x as [|v|y]; cbn [Domain_Interval].
  - destruct (Z.ltb_spec hi lo).
    { eexists. split; [reflexivity|]. intros k K C. apply Eq in C; lia. }
    destruct (Z.eqb_spec lo hi).
    { eexists. split; [reflexivity|]. intros k K. rewrite <- (Eq k K). lia. }
    eexists. split; [reflexivity|]. split; [apply New_Variable_ok; ints|]. split; [reflexivity|]. unfold stands, New_Variable_Interval. cbn [tagv frange]. intros k K _. rewrite <- (Eq k K). unfold rin. cbn. tauto.
  - eexists. split; [reflexivity|]. destruct (Z.leb_spec lo v), (Z.leb_spec v hi), (Z.leb_spec 0 v), (Z.leb_spec l v), (Z.leb_spec v u); cbn [andb]; try reflexivity; exfalso; ints.
  - destruct (O y eq_refl) as [Oy Fy]. destruct (Tell_Interval_ok junk a y lo hi J A Oy) as [t [Et Ht]]; [ints|ints| |].
    { intros Ty. specialize (Fy Ty). intros F1 F2 F3. destruct (Fy F1 F2) as [F|[_ F]]; [|left; exact F|right].
      - intros k K. assert (K0 : 0 <= k) by (unfold fdv_ok in Oy; rewrite Ty in Oy; destruct K as [K _]; lia). specialize (F3 k K). split; [|exact I]. destruct F3 as [F3 _]. cbn [rmin rmax] in *. now apply Eq.
      - split; [reflexivity|]. cbn [rmax] in *. lia. } rewrite Et. cbn [bind]. eexists. split; [reflexivity|]. exists t. split; [|reflexivity].
    destruct Ht as [H1 [H2 H3]]. split; [|split].
    + intros Su. destruct (H1 Su) as [A1 [A2 [A3 A4]]]. repeat (split; [assumption|]). intros k K. destruct (A4 k K) as [K1 K2]. split; [exact K1|]. intros K0. apply (Eq k K0). auto.
    + intros W Su T M. specialize (H2 W Su T M). unfold stands in H2 |- *. destruct (tagv (var t)).
      * intros k K. rewrite <- (H2 k K), (Eq k K). tauto.
      * intros k K V. rewrite (H2 k K V), (Eq k K). tauto.
    + intros W Su T M k K X. apply (H3 W Su T M k K). now rewrite (Eq k K).
Qed.
End T.
