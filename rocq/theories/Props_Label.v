(** C71: labeling. *)
Require Import ZArith List Bool Lia Sorting.Sorted.
Require Import Verif.Label_Model Verif.Label_Spec Verif.Label_Proofs Verif.Label_Order.
Import ListNotations.
Open Scope Z_scope.

(** ** C71_indomain: each value of a solution is an answer, no value is twice, for each method and any sound propagation *)
Theorem C71_indomain : forall P prune random, prune_ok P prune -> (forall D, (random D < length D)%nat \/ D = []) ->
  forall m D fuel, 0 <= m <= 6 -> wf D -> (length D = 1%nat -> prune D = Some D) -> (2 * length D <= fuel)%nat ->
  exists L, Indomain_2 prune random fuel m D = Some L /\ enumerates P prune (fun z => In z D) L.
Proof. intros P prune random PO RO m D fuel V W O F. exact (proj1 (indomain_ok P prune random PO RO fuel) m D V W O F). Qed.

(** ** C71_order: without other constraints the order is that of the method *)
Theorem C71_order : forall random D fuel, wf D -> (2 * length D <= fuel)%nat ->
  Indomain_2 free random fuel METHOD_MIN D = Some D /\ Indomain_2 free random fuel METHOD_MAX D = Some (rev D) /\
  Indomain_2 free random fuel METHOD_BISECT D = Some D /\
  exists L, Indomain_2 free random fuel METHOD_LIMITS_MIN D = Some L /\ outside_in true D L.
Proof.
  intros random D fuel W F. pose proof W as (_ & N & _). pose proof (wf_nodup D W) as ND.
  destruct fuel as [|fuel]; [destruct D; [congruence|cbn in F; lia]|].
  assert (BI : Indomain_2 free random (S fuel) METHOD_BISECT D = Some D) by (apply bisect_free; auto).
  destruct D as [|x [|y D]]; [congruence| |].
  - split; [reflexivity|]. split; [reflexivity|]. split; [reflexivity|]. exists [x]. split; [reflexivity|constructor].
  - destruct (alt_free random fuel) as [A1 A2].
    destruct (A1 x (y :: D) ND) as [E1 (L & E2 & OI)]; [discriminate|cbn in F |- *; lia|].
    split; [|split; [|split; [exact BI|]]].
    + change (match Indomain_Alt free random fuel METHOD_MIN x (x :: y :: D) with Some b => Some ([x] ++ b) | None => None end = Some (x :: y :: D)).
      rewrite E1. reflexivity.
    + destruct (snoc (x :: y :: D)) as (D' & z & E'); [discriminate|].
      assert (M : Select_Value random METHOD_MAX (x :: y :: D) = z) by (change (last (x :: y :: D) 0 = z); rewrite E'; apply last_last).
      change (match Indomain_Alt free random fuel METHOD_MAX (Select_Value random METHOD_MAX (x :: y :: D)) (x :: y :: D) with
                Some b => Some ([Select_Value random METHOD_MAX (x :: y :: D)] ++ b) | None => None end = Some (rev (x :: y :: D))).
      assert (Ld : length (x :: y :: D) = S (length D')) by (rewrite E', app_length; cbn; lia).
      rewrite M, E'. rewrite E' in ND. destruct (A2 z D' ND) as [-> _]; [intros ->; cbn in Ld; lia|cbn in F, Ld |- *; lia|].
      rewrite rev_app_distr. reflexivity.
    + exists (x :: L). split; [|constructor; exact OI].
      change (match Indomain_Alt free random fuel METHOD_LIMITS_MIN x (x :: y :: D) with Some b => Some ([x] ++ b) | None => None end = Some (x :: L)).
      rewrite E2. reflexivity.
Qed.

Lemma filter_le (f : nat -> bool) l : (length (filter f l) <= length l)%nat.
Proof. induction l as [|x l IH]; cbn; [lia|]. destruct (f x); cbn; lia. Qed.
(** ** C71_pick: no variable is returned exactly when all are known; else one that is not known, and no other is lost *)
Theorem C71_pick : forall vars cmp, strict cmp -> forall reorder a,
  match Pick_Var vars cmp reorder a with
  | None => forall v, In v a -> ground (vars v) = true
  | Some (a', v) => In v a /\ ground (vars v) = false /\
      forall w, ground (vars w) = false -> (In w a' <-> In w a)
  end.
Proof.
  intros vars cmp CO reorder a. unfold Pick_Var. pose proof (scan_all vars cmp CO a reorder) as V.
  destruct (fold_left (scan_step vars cmp reorder) (seq 0 (length a)) (a, None, 0%nat)) as [[a' res] g]. destruct V as [L I G N K]. cbn [fst snd] in *.
  destruct res as [r|].
  - destruct (K r eq_refl) as (Lr & Gr & _).
    destruct (Nat.ltb 50 (length a) && Nat.leb (Nat.div (length a) 2) g) eqn:E.
    + assert (Lk : length (filter (fun v => negb (is_ground vars v)) a') = (length a - g)%nat).
      { rewrite <- L in *. rewrite firstn_all in G. subst g. clear.
        induction a' as [|x a' IH]; [reflexivity|]. cbn [filter]. pose proof (filter_le (is_ground vars) a') as Q.
        destruct (is_ground vars x); cbn [negb length]; lia. }
      set (kept := filter (fun v => negb (is_ground vars v)) a') in *.
      assert (Fs : firstn (length a - g) (kept ++ skipn (length a - g) a') = kept).
      { rewrite <- Lk, firstn_app, Nat.sub_diag, firstn_all, firstn_O, app_nil_r. reflexivity. }
      rewrite Fs.
      assert (Pk : In (nth r (kept ++ skipn (length a - g) a') 0%nat) kept).
      { destruct (Nat.lt_ge_cases r (length kept)) as [Lt|Ge].
        - rewrite app_nth1 by exact Lt. apply nth_In, Lt.
        - rewrite app_nth2 by exact Ge. assert (Nk : nth (r - length kept) (skipn (length a - g) a') 0%nat = nth r a' 0%nat).
          { rewrite <- (firstn_skipn (length a - g) a') at 2. rewrite app_nth2; rewrite firstn_length; [|lia]. f_equal. lia. }
          rewrite Nk. apply filter_In. split; [apply nth_In; lia|]. rewrite Gr. reflexivity. }
      apply filter_In in Pk as [Pi Pg]. split; [apply I, Pi|]. split; [apply negb_true_iff in Pg; exact Pg|].
      intros w Gw. unfold kept. rewrite filter_In, I. split; [intros [J _]; exact J|]. intros J. split; [exact J|]. unfold is_ground. rewrite Gw. reflexivity.
    + split; [apply I, nth_In; lia|]. split; [exact Gr|]. intros w _. apply I.
  - intros v J. apply I in J. apply (In_nth a' v 0%nat) in J as (i & Li & <-). apply (N eq_refl). lia.
Qed.

(** ** C71_random: the same for METHOD_RANDOM; the first [n] cells keep their variables (array[-1] is trailed, the cells are not) *)
Theorem C71_random : forall vars rnd, (forall n, (0 < n)%nat -> (rnd n < n)%nat) -> forall n a, (n <= length a)%nat ->
  match Random_Pick vars rnd n a with
  | None => forall v, among n a v -> ground (vars v) = true
  | Some (a', n', v) => (n' < n)%nat /\ among n a v /\ ground (vars v) = false /\ length a' = length a /\
      (forall x, among n a' x <-> among n a x) /\ (forall i, (n <= i)%nat -> nth i a' 0%nat = nth i a 0%nat) /\
      forall w, ground (vars w) = false -> (among n a w <-> w = v \/ among n' a' w)
  end.
Proof.
  intros vars rnd Rn. induction n as [|k IH]; intros a L; cbn [Random_Pick]; [intros v (i & Li & _); lia|].
  pose proof (Rn (S k) ltac:(lia)) as Li. set (i := rnd (S k)) in *. set (v := nth i a 0%nat). set (a1 := upd (upd a i (nth k a 0%nat)) k v).
  assert (L1 : length a1 = length a) by (unfold a1; rewrite !upd_length; reflexivity).
  assert (Nt : forall j, nth j a1 0%nat = if Nat.eqb j k then v else if Nat.eqb j i then nth k a 0%nat else nth j a 0%nat).
  { intros j. unfold a1. rewrite upd_nth by (rewrite upd_length; lia). rewrite upd_nth by lia. reflexivity. }
  assert (Out : forall j, (S k <= j)%nat -> nth j a1 0%nat = nth j a 0%nat).
  { intros j Lj. rewrite Nt. replace (Nat.eqb j k) with false by (symmetry; apply Nat.eqb_neq; lia). replace (Nat.eqb j i) with false by (symmetry; apply Nat.eqb_neq; lia). reflexivity. }
  assert (Am : forall x, among (S k) a1 x <-> among (S k) a x).
  { intros x. split; intros (j & Lj & E).
    - rewrite Nt in E. destruct (Nat.eqb j k); [exists i; split; [lia|exact E]|]. destruct (Nat.eqb j i); [exists k; split; [lia|exact E]|]. exists j. split; [lia|exact E].
    - destruct (Nat.eq_dec j i) as [->|N1]; [exists k; split; [lia|]; rewrite Nt, Nat.eqb_refl; exact E|].
      destruct (Nat.eq_dec j k) as [->|N2].
      + exists i. split; [lia|]. rewrite Nt. replace (Nat.eqb i k) with false by (symmetry; apply Nat.eqb_neq; congruence). rewrite Nat.eqb_refl. exact E.
      + exists j. split; [lia|]. rewrite Nt. apply Nat.eqb_neq in N1, N2. rewrite N1, N2. exact E. }
  assert (Sp : forall n x, among (S n) a1 x <-> among n a1 x \/ nth n a1 0%nat = x).
  { intros n x. split.
    - intros (j & Lj & E). destruct (Nat.eq_dec j n) as [->|]; [right; exact E|left; exists j; split; [lia|exact E]].
    - intros [(j & Lj & E)|E]; [exists j; split; [lia|exact E]|exists n; split; [lia|exact E]]. }
  assert (Vk : nth k a1 0%nat = v) by (rewrite Nt, Nat.eqb_refl; reflexivity).
  destruct (is_ground vars v) eqn:G.
  - specialize (IH a1 ltac:(lia)). destruct (Random_Pick vars rnd k a1) as [[[a' n'] w]|].
    + destruct IH as (Ln & Aw & Gw & L' & Am' & Out' & Sh). split; [lia|]. split; [apply Am, Sp; left; exact Aw|]. split; [exact Gw|]. split; [lia|].
      assert (Nk : nth k a' 0%nat = v) by (rewrite Out' by lia; exact Vk).
      split; [|split].
      * intros x. rewrite <- Am, Sp, <- Am', Vk. split.
        -- intros (j & Lj & E). destruct (Nat.eq_dec j k) as [->|]; [right; congruence|left; exists j; split; [lia|exact E]].
        -- intros [(j & Lj & E)|E]; [exists j; split; [lia|exact E]|exists k; split; [lia|congruence]].
      * intros j Lj. rewrite Out' by lia. apply Out, Lj.
      * intros x Gx. rewrite <- Am, Sp, Vk, <- Sh by exact Gx. split; [intros [J| <-]; [exact J|unfold is_ground in G; congruence]|auto].
    + intros x J. apply Am, Sp in J as [J|<-]; [apply IH, J|]. rewrite Vk. exact G.
  - split; [lia|]. split; [exists i; split; [lia|reflexivity]|]. split; [exact G|]. split; [exact L1|]. split; [exact Am|]. split; [exact Out|].
    intros x _. rewrite <- Am, Sp, Vk. split; [intros [J| <-]; auto|intros [->|J]; auto].
Qed.

(** ** C71_best_partial: when the array is not packed, no variable is better.  Missing: arrays that are packed (see below) *)
Theorem C71_best_partial : forall vars cmp, strict cmp -> forall reorder a a' v, Pick_Var vars cmp reorder a = Some (a', v) ->
  (length a <= 50)%nat \/ (forall w, In w a -> ground (vars w) = false) ->
  forall w, In w a -> ground (vars w) = false -> cmp (vars v) (vars w) = false.
Proof.
  intros vars cmp CO reorder a a1 v Q H w Jw Gw. unfold Pick_Var in Q. pose proof (scan_all vars cmp CO a reorder) as V.
  destruct (fold_left (scan_step vars cmp reorder) (seq 0 (length a)) (a, None, 0%nat)) as [[a' res] g]. destruct V as [L I G N K]. cbn [fst snd] in *.
  destruct res as [r|]; [|discriminate]. destruct (K r eq_refl) as (Lr & Gr & Kr).
  assert (E : Nat.ltb 50 (length a) && Nat.leb (Nat.div (length a) 2) g = false).
  { apply andb_false_iff. destruct H as [H|H]; [left; apply Nat.ltb_ge, H|]. destruct (Nat.ltb 50 (length a)) eqn:L5; [|left; reflexivity]. right.
    apply Nat.leb_gt. apply Nat.ltb_lt in L5. assert (g = 0%nat).
    { subst g. destruct (filter (is_ground vars) (firstn (length a) a')) as [|x l] eqn:E; [reflexivity|].
      assert (J : In x (filter (is_ground vars) (firstn (length a) a'))) by (rewrite E; left; reflexivity).
      apply filter_In in J as [J Gx]. rewrite <- L, firstn_all in J. apply I, H in J. unfold is_ground in Gx. congruence. }
    subst g. pose proof (Nat.div_str_pos (length a) 2). lia. }
  rewrite E in Q. injection Q as <- <-. apply I in Jw. apply (In_nth a' w 0%nat) in Jw as (i & Li & <-). apply Kr; [lia|exact Gw].
Qed.

(** ** C71_best_refuted: 60 variables, 30 of them known: *res_elem is read after the array was packed, another variable is
    returned than the one chosen: here the domain with 9 values, not that with 2 values *)
Definition ex_vars (v : nat) : info :=
  if Nat.eqb v 0 || Nat.ltb 30 v then Info true 1 0 0 0 0 else if Nat.eqb v 5 then Info false 2 0 0 0 0 else Info false 9 0 0 0 0.
Theorem C71_best_refuted : exists vars a a' v w, Pick_Var vars Cmp_First_Fail true a = Some (a', v) /\ In w a /\ ground (vars w) = false /\
  Cmp_First_Fail (vars v) (vars w) = true.
Proof.
  exists ex_vars, (seq 0 60), (firstn 30 (skipn 1 (upd (upd (seq 0 60) 5 1%nat) 1 5%nat))), 2%nat, 5%nat. vm_compute. tauto.
Qed.

Theorem C71_cmp : strict Cmp_First_Fail /\ strict Cmp_Most_Constrained /\ strict Cmp_Smallest /\ strict Cmp_Largest /\ strict Cmp_Max_Regret.
Proof. exact cmp_strict. Qed.

Print Assumptions C71_indomain.
Print Assumptions C71_order.
Print Assumptions C71_pick.
Print Assumptions C71_random.
Print Assumptions C71_best_partial.
Print Assumptions C71_best_refuted.
Print Assumptions C71_cmp.

(** X in {1, 2, 5, 7, 8} with a constraint that wants an odd value and removes the even ones when less than three are left *)
Definition ex_prune (D : dom) : option dom :=
  if Nat.ltb (length D) 3 then match filter Z.odd D with [] => None | D' => Some D' end else Some D.
Example C71_ex : prune_ok (fun z => Z.odd z = true) ex_prune /\ wf [1; 2; 5; 7; 8] /\
  Indomain_2 ex_prune (fun _ => 0%nat) 10 METHOD_MIDDLE [1; 2; 5; 7; 8] = Some [5; 1; 7] /\
  Indomain_2 ex_prune (fun _ => 0%nat) 10 METHOD_BISECT [1; 2; 5; 7; 8] = Some [1; 5; 7] /\
  Indomain_2 free (fun _ => 0%nat) 10 METHOD_LIMITS_MIN [1; 2; 5; 7; 8] = Some [1; 8; 2; 7; 5].
Proof.
  split; [|split; [|split; [reflexivity|split; reflexivity]]].
  - intros D W. unfold ex_prune. destruct (Nat.ltb (length D) 3) eqn:E.
    + destruct (filter Z.odd D) as [|x D'] eqn:F.
      * intros z J O. assert (K : In z (filter Z.odd D)) by (apply filter_In; auto). rewrite F in K. destruct K.
      * assert (Fi : forall z, In z (x :: D') -> In z D /\ Z.odd z = true) by (intros z J; rewrite <- F in J; apply filter_In, J).
        split; [rewrite <- F; apply wf_filter; [exact W|rewrite F; discriminate]|]. split; [intros z J; apply Fi, J|].
        split; [intros z J O; rewrite <- F; apply filter_In; auto|]. intros w Q. cbn. destruct (Fi w) as [_ ->]; [rewrite Q; left; reflexivity|reflexivity].
    + split; [exact W|]. split; [intros z J; exact J|]. split; [auto|]. intros w ->. discriminate E.
  - split; [|split; [discriminate|cbn; lia]]. repeat (constructor; [|repeat (constructor; try lia)]). constructor.
Qed.
Example C71_pick_ex : Pick_Var ex_vars Cmp_First_Fail true [0; 3; 4; 5; 6; 40]%nat = Some ([0; 5; 4; 3; 6; 40]%nat, 5%nat).
Proof. reflexivity. Qed.
(** cell 0 each time: 0 and 40 are known, 4 is returned *)
Example C71_random_ex : Random_Pick ex_vars (fun _ => 0%nat) 4 [0; 3; 4; 40]%nat = Some ([3; 4; 40; 0]%nat, 1%nat, 4%nat).
Proof. reflexivity. Qed.
