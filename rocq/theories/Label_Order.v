(** The order of the answers, and the choice of a variable. *)
Require Import ZArith List Bool Lia Sorting.Sorted.
Require Import Verif.Label_Model Verif.Label_Spec Verif.Label_Proofs.
Import ListNotations.
Open Scope Z_scope.

(** no other constraint *)
Definition free (D : dom) : option dom := Some D.
Lemma free_ok : prune_ok (fun _ => True) free.
Proof. intros D W. cbn. split; [exact W|]. split; [intros z J; exact J|]. split; [auto|]. intros w _. reflexivity. Qed.

Section S.
Variable random : dom -> nat.
Notation Ind := (Indomain_2 free random).
Notation Alt := (Indomain_Alt free random).
Lemma tell_free f D : tell free f D = match filter f D with [] => None | D' => Some D' end.
Proof. unfold tell, free. destruct (filter f D); reflexivity. Qed.
Lemma filter_all (f : Z -> bool) D : (forall z, In z D -> f z = true) -> filter f D = D.
Proof. induction D as [|x D IH]; intros Q; [reflexivity|]. cbn. rewrite (Q x (or_introl eq_refl)). f_equal. apply IH. intros z J. apply Q. right. exact J. Qed.
Lemma filter_none (f : Z -> bool) D : (forall z, In z D -> f z = false) -> filter f D = [].
Proof. induction D as [|x D IH]; intros Q; [reflexivity|]. cbn. rewrite (Q x (or_introl eq_refl)). apply IH. intros z J. apply Q. right. exact J. Qed.
Lemma remove_first v D : NoDup (v :: D) -> filter (fun z => negb (z =? v)) (v :: D) = D.
Proof.
  intros N. inversion N; subst. cbn. rewrite Z.eqb_refl. cbn. apply filter_all. intros z J. apply negb_true_iff, Z.eqb_neq. congruence.
Qed.
Lemma remove_last v D : NoDup (D ++ [v]) -> filter (fun z => negb (z =? v)) (D ++ [v]) = D.
Proof.
  intros N. rewrite filter_app. cbn. rewrite Z.eqb_refl. cbn. rewrite app_nil_r. apply filter_all. intros z J. apply negb_true_iff, Z.eqb_neq. intros ->.
  apply NoDup_remove_2 in N. rewrite app_nil_r in N. auto.
Qed.
Lemma snoc (D : list Z) : D <> [] -> exists D' x, D = D' ++ [x].
Proof. intros N. exists (removelast D), (last D 0). apply app_removelast_last, N. Qed.
Lemma nodup_init D (x : Z) : NoDup (D ++ [x]) -> NoDup D.
Proof. intros N. apply NoDup_remove_1 in N. rewrite app_nil_r in N. exact N. Qed.
Lemma alt_free fuel : 
  (forall v D, NoDup (v :: D) -> D <> [] -> (length D < fuel)%nat -> Alt fuel METHOD_MIN v (v :: D) = Some D /\
     exists L, Alt fuel METHOD_LIMITS_MIN v (v :: D) = Some L /\ outside_in false D L) /\
  (forall v D, NoDup (D ++ [v]) -> D <> [] -> (length D < fuel)%nat -> Alt fuel METHOD_MAX v (D ++ [v]) = Some (rev D) /\
     exists L, Alt fuel METHOD_LIMITS_MAX v (D ++ [v]) = Some L /\ outside_in true D L).
Proof.
  induction fuel as [|fuel [IH1 IH2]]; [split; intros; lia|]. split; intros v D N E F.
  - cbn [Indomain_Alt]. rewrite !tell_free, !remove_first by exact N. inversion N as [|? ? _ N']; subst.
    destruct D as [|x [|y D]]; [congruence| |].
    + split; [reflexivity|]. exists [x]. split; [reflexivity|constructor].
    + split.
      * change (match Alt fuel METHOD_MIN x (x :: y :: D) with Some b => Some (assign free x ++ b) | None => None end = Some (x :: y :: D)).
        destruct (IH1 x (y :: D)) as [-> _]; [exact N'|discriminate|cbn in F |- *; lia|]. reflexivity.
      * destruct (snoc (x :: y :: D)) as (D' & z & E'); [discriminate|].
        assert (M : Select_Value random METHOD_LIMITS_MAX (x :: y :: D) = z).
        { change (last (x :: y :: D) 0 = z). rewrite E'. apply last_last. }
        change (exists L, match Alt fuel METHOD_LIMITS_MAX (Select_Value random METHOD_LIMITS_MAX (x :: y :: D)) (x :: y :: D) with
                          Some b => Some (assign free (Select_Value random METHOD_LIMITS_MAX (x :: y :: D)) ++ b) | None => None end = Some L /\ outside_in false (x :: y :: D) L).
        rewrite M, E'. rewrite E' in N'. assert (Ld : length (x :: y :: D) = S (length D')) by (rewrite E', app_length; cbn; lia).
        destruct (IH2 z D') as [_ (L & -> & OI)]; [exact N'|intros ->; cbn in Ld; lia|cbn in F, Ld |- *; lia|].
        exists (z :: L). split; [reflexivity|]. constructor. exact OI.
  - cbn [Indomain_Alt]. rewrite !tell_free, !remove_last by exact N. pose proof (nodup_init _ _ N) as N'.
    destruct D as [|x [|y D]]; [congruence| |].
    + split; [reflexivity|]. exists [x]. split; [reflexivity|constructor].
    + split.
      * destruct (snoc (x :: y :: D)) as (D' & z & E'); [discriminate|].
        assert (M : Select_Value random METHOD_MAX (x :: y :: D) = z).
        { change (last (x :: y :: D) 0 = z). rewrite E'. apply last_last. }
        change (match Alt fuel METHOD_MAX (Select_Value random METHOD_MAX (x :: y :: D)) (x :: y :: D) with
                  Some b => Some (assign free (Select_Value random METHOD_MAX (x :: y :: D)) ++ b) | None => None end = Some (rev (x :: y :: D))).
        rewrite M, E'. rewrite E' in N'. assert (Ld : length (x :: y :: D) = S (length D')) by (rewrite E', app_length; cbn; lia).
        destruct (IH2 z D') as [-> _]; [exact N'|intros ->; cbn in Ld; lia|cbn in F, Ld |- *; lia|].
        rewrite rev_app_distr. reflexivity.
      * change (exists L, match Alt fuel METHOD_LIMITS_MIN x (x :: y :: D) with Some b => Some (assign free x ++ b) | None => None end = Some L /\ outside_in true (x :: y :: D) L).
        destruct (IH1 x (y :: D)) as [_ (L & -> & OI)]; [exact N'|discriminate|cbn in F |- *; lia|].
        exists (x :: L). split; [reflexivity|]. constructor. exact OI.
Qed.
Lemma split_at v D : wf D -> filter (fun z => (0 <=? z) && (z <=? v)) D ++ filter (fun z => (v + 1 <=? z) && (z <=? INTERVAL_MAX_INTEGER)) D = D.
Proof.
  intros (S & _ & B). induction S as [|x D S IH F]; [reflexivity|]. cbn [filter].
  pose proof (B x (or_introl eq_refl)) as Bx. unfold INTERVAL_MAX_INTEGER in *. change (2 ^ 28 - 1) with 268435455 in *. rewrite Forall_forall in F.
  destruct (Z_le_gt_dec x v) as [Le|Gt].
  - replace ((0 <=? x) && (x <=? v)) with true by (symmetry; apply andb_true_iff; rewrite !Z.leb_le; lia).
    replace ((v + 1 <=? x) && (x <=? 268435455)) with false by (symmetry; apply andb_false_iff; rewrite !Z.leb_gt; lia).
    cbn [app]. f_equal. apply IH. intros z J. apply B. right. exact J.
  - replace ((0 <=? x) && (x <=? v)) with false by (symmetry; apply andb_false_iff; rewrite !Z.leb_gt; lia).
    replace ((v + 1 <=? x) && (x <=? 268435455)) with true by (symmetry; apply andb_true_iff; rewrite !Z.leb_le; lia).
    rewrite (filter_none _ D), (filter_all _ D); [reflexivity| |].
    + intros z J. specialize (F z J). specialize (B z (or_intror J)). apply andb_true_iff. rewrite !Z.leb_le. lia.
    + intros z J. specialize (F z J). apply andb_false_iff. rewrite !Z.leb_gt. lia.
Qed.
Lemma bisect_free fuel : forall D, wf D -> (2 * length D <= fuel)%nat -> Ind fuel METHOD_BISECT D = Some D.
Proof.
  induction fuel as [fuel IH] using lt_wf_ind. intros D W F. pose proof W as (S & N & B).
  destruct D as [|x [|y D']]; [congruence|destruct fuel; [cbn in F; lia|reflexivity]|]. set (D := x :: y :: D') in *.
  destruct fuel as [|[|fuel]]; [cbn in F; lia..|].
  assert (L2 : (2 <= length D)%nat) by (cbn; lia).
  set (v := Select_Value random METHOD_BISECT D).
  assert (J : In v D).
  { unfold v. change (Select_Value random METHOD_BISECT D) with (Ith_Elem D (Nat.div (length D) 2)).
    pose proof (Nat.div_lt (length D) 2 ltac:(lia) ltac:(lia)). unfold Ith_Elem. destruct (Nat.div (length D) 2) as [|k] eqn:E; [apply Nat.div_small_iff in E; lia|].
    apply nth_In. lia. }
  destruct (select_bisect random D W L2) as (w & Jw & Lw). fold v in Lw.
  set (A := filter (fun z => (0 <=? z) && (z <=? v)) D). set (C := filter (fun z => (v + 1 <=? z) && (z <=? INTERVAL_MAX_INTEGER)) D).
  assert (NA : In v A) by (apply filter_In; split; [exact J|]; apply andb_true_iff; rewrite !Z.leb_le; specialize (B v J); lia).
  assert (NC : In w C).
  { apply filter_In; split; [exact Jw|]; apply andb_true_iff; rewrite !Z.leb_le; unfold INTERVAL_MAX_INTEGER; specialize (B w Jw); lia. }
  assert (WA : wf A) by (apply wf_filter; [exact W|]; fold A; intros Q; rewrite Q in NA; destruct NA).
  assert (WC : wf C) by (apply wf_filter; [exact W|]; fold C; intros Q; rewrite Q in NC; destruct NC).
  assert (LA : (length A < length D)%nat).
  { apply (shrink D A w); auto; [intros z Jz; apply filter_In in Jz; apply Jz|]. intros Q. apply filter_In in Q as [_ Q]. apply andb_true_iff in Q as [_ Q]. apply Z.leb_le in Q. lia. }
  assert (LC : (length C < length D)%nat).
  { apply (shrink D C v); auto; [intros z Jz; apply filter_In in Jz; apply Jz|]. intros Q. apply filter_In in Q as [_ Q]. apply andb_true_iff in Q as [Q _]. apply Z.leb_le in Q. lia. }
  change (match (match tell free (fun z => (0 <=? z) && (z <=? v)) D with None => Some [] | Some D' => Ind (Datatypes.S fuel) METHOD_BISECT D' end),
     (match tell free (fun z => (v + 1 <=? z) && (z <=? INTERVAL_MAX_INTEGER)) D with None => Some [] | Some D' => Ind fuel METHOD_BISECT D' end)
     with Some a, Some b => Some (a ++ b) | _, _ => None end = Some D).
  rewrite !tell_free. fold A C.
  assert (EA : Ind (Datatypes.S fuel) METHOD_BISECT A = Some A) by (apply IH; [lia|exact WA|lia]).
  assert (EC : Ind fuel METHOD_BISECT C = Some C) by (apply IH; [lia|exact WC|lia]).
  assert (SP : A ++ C = D) by (apply split_at, W).
  destruct A as [|a A']; [destruct NA|]. destruct C as [|c C']; [destruct NC|]. rewrite EA, EC, SP. reflexivity.
Qed.
End S.

(** ** The choice of a variable *)
Lemma cmp_strict : strict Cmp_First_Fail /\ strict Cmp_Most_Constrained /\ strict Cmp_Smallest /\ strict Cmp_Largest /\ strict Cmp_Max_Regret.
Proof.
  unfold strict, Cmp_First_Fail, Cmp_Most_Constrained, Cmp_Smallest, Cmp_Largest, Cmp_Max_Regret.
  repeat match goal with |- _ /\ _ => split end; intros;
  rewrite ?Z.ltb_irrefl, ?andb_false_r, ?orb_true_iff, ?andb_true_iff, ?Z.ltb_lt, ?Z.eqb_eq in *; try reflexivity; lia.
Qed.
Section Pick.
Variable vars : nat -> info.
Variable cmp : info -> info -> bool.
Hypothesis CO : strict cmp.
Notation is_ground := (is_ground vars).
Lemma upd_length l i v : length (upd l i v) = length l.
Proof. revert i. induction l as [|x l IH]; intros [|i]; cbn; auto. Qed.
Lemma upd_nth l : forall i v j, (i < length l)%nat -> nth j (upd l i v) 0%nat = if Nat.eqb j i then v else nth j l 0%nat.
Proof. induction l as [|x l IH]; intros [|i] v [|j] L; cbn in *; try lia; auto. apply IH. lia. Qed.
Lemma in_nth (x : nat) l : In x l <-> exists i, (i < length l)%nat /\ nth i l 0%nat = x.
Proof. split; [intros J; apply (In_nth l x 0%nat) in J as (i & L & E); eauto|intros (i & L & <-); apply nth_In, L]. Qed.

Record Inv (a0 : list nat) (p : nat) (s : list nat * option nat * nat) : Prop := {
  v_len : length (fst (fst s)) = length a0;
  v_in : forall x, In x (fst (fst s)) <-> In x a0;
  v_g : snd s = length (filter is_ground (firstn p (fst (fst s))));
  v_none : snd (fst s) = None -> forall i, (i < p)%nat -> is_ground (nth i (fst (fst s)) 0%nat) = true;
  v_some : forall r, snd (fst s) = Some r -> (r < p)%nat /\ is_ground (nth r (fst (fst s)) 0%nat) = false /\
    forall i, (i < p)%nat -> is_ground (nth i (fst (fst s)) 0%nat) = false -> cmp (vars (nth r (fst (fst s)) 0%nat)) (vars (nth i (fst (fst s)) 0%nat)) = false }.
Lemma firstn_step (l : list nat) p : (p < length l)%nat -> firstn (S p) l = firstn p l ++ [nth p l 0%nat].
Proof. revert p. induction l as [|x l IH]; intros [|p] L; cbn in *; try lia; auto. f_equal. apply IH. lia. Qed.
Lemma count_swap (l l' : list nat) p r : length l' = length l -> (r < p)%nat -> (p < length l)%nat -> is_ground (nth r l 0%nat) = false -> is_ground (nth r l' 0%nat) = false ->
  (forall i, i <> r -> i <> p -> nth i l' 0%nat = nth i l 0%nat) -> length (filter is_ground (firstn p l')) = length (filter is_ground (firstn p l)).
Proof.
  intros E R Lp G G' Q. revert l' p r E R Lp G G' Q. induction l as [|x l IH]; intros [|x' l'] p r E R Lp G G' Q; cbn in E, Lp; try lia.
  destruct p as [|p]; [lia|]. cbn [firstn filter]. destruct r as [|r].
  - cbn in G, G'. rewrite G, G'. f_equal. f_equal. apply nth_ext with (d := 0%nat) (d' := 0%nat); [rewrite !firstn_length; lia|].
    intros i Li. rewrite firstn_length in Li. assert (nth i (firstn p l') 0%nat = nth i l' 0%nat /\ nth i (firstn p l) 0%nat = nth i l 0%nat) as [-> ->].
    { split; [rewrite <- (firstn_skipn p l') at 2|rewrite <- (firstn_skipn p l) at 2]; rewrite app_nth1; auto; rewrite firstn_length; lia. }
    apply (Q (S i)); lia.
  - assert (x' = x) by (apply (Q 0%nat); lia). subst x'.
    assert (length (filter is_ground (firstn p l')) = length (filter is_ground (firstn p l))).
    { apply (IH l' p r); auto; try lia. intros i N1 N2. apply (Q (S i)); lia. }
    destruct (is_ground x); cbn; auto.
Qed.
Lemma scan_inv a0 reorder p s : (p < length a0)%nat -> Inv a0 p s -> Inv a0 (S p) (scan_step vars cmp reorder s p).
Proof.
  intros Lp [L I G N K]. destruct s as [[a res] g]. cbn [fst snd] in *. unfold scan_step. destruct CO as [Irr Tr].
  assert (La : (p < length a)%nat) by lia.
  destruct (is_ground (nth p a 0%nat)) eqn:Gp.
  - constructor; cbn [fst snd]; auto.
    + rewrite firstn_step, filter_app, app_length by lia. cbn. rewrite Gp. cbn. lia.
    + intros E i Li. destruct (Nat.eq_dec i p) as [->|]; auto. apply N; auto. lia.
    + intros r E. destruct (K r E) as (Lr & Gr & Kr). split; [lia|]. split; [exact Gr|]. intros i Li Gi. destruct (Nat.eq_dec i p) as [->|]; [congruence|]. apply Kr; auto. lia.
  - assert (Gc : g = length (filter is_ground (firstn (S p) a))).
    { rewrite firstn_step, filter_app, app_length by lia. cbn. rewrite Gp. cbn. lia. }
    destruct res as [r|].
    + destruct (K r eq_refl) as (Lr & Gr & Kr). destruct (cmp (vars (nth r a 0%nat)) (vars (nth p a 0%nat))) eqn:C.
      * destruct reorder.
        -- set (a' := upd (upd a p (nth r a 0%nat)) r (nth p a 0%nat)).
           assert (Nt : forall j, nth j a' 0%nat = if Nat.eqb j r then nth p a 0%nat else if Nat.eqb j p then nth r a 0%nat else nth j a 0%nat).
           { intros j. unfold a'. rewrite upd_nth by (rewrite upd_length; lia). rewrite upd_nth by lia. reflexivity. }
           assert (La' : length a' = length a) by (unfold a'; rewrite !upd_length; reflexivity).
           assert (Rr : nth r a' 0%nat = nth p a 0%nat) by (rewrite Nt, Nat.eqb_refl; reflexivity).
           assert (Rp : nth p a' 0%nat = nth r a 0%nat).
           { rewrite Nt. replace (Nat.eqb p r) with false by (symmetry; apply Nat.eqb_neq; lia). rewrite Nat.eqb_refl. reflexivity. }
           assert (Ro : forall i, i <> r -> i <> p -> nth i a' 0%nat = nth i a 0%nat).
           { intros i N1 N2. rewrite Nt. apply Nat.eqb_neq in N1, N2. rewrite N1, N2. reflexivity. }
           constructor; cbn [fst snd].
           ++ lia.
           ++ intros x. rewrite <- I, !in_nth, La'. split; intros (i & Li & E).
              ** destruct (Nat.eq_dec i r) as [->|N1]; [exists p; split; [lia|congruence]|]. destruct (Nat.eq_dec i p) as [->|N2]; [exists r; split; [lia|congruence]|].
                 exists i. split; [lia|]. rewrite <- (Ro i N1 N2). exact E.
              ** destruct (Nat.eq_dec i r) as [->|N1]; [exists p; split; [lia|congruence]|]. destruct (Nat.eq_dec i p) as [->|N2]; [exists r; split; [lia|congruence]|].
                 exists i. split; [lia|]. rewrite (Ro i N1 N2). exact E.
           ++ rewrite firstn_step, filter_app, app_length by lia. rewrite Rp. cbn [filter]. rewrite Gr. cbn [length].
              rewrite (count_swap a a' p r); auto; try lia. rewrite Rr. exact Gp.
           ++ discriminate.
           ++ intros r' E. injection E as <-. split; [lia|]. rewrite Rr. split; [exact Gp|]. intros i Li Gi.
              destruct (Nat.eq_dec i r) as [->|N1]; [rewrite Rr; apply Irr|]. destruct (Nat.eq_dec i p) as [->|N2].
              ** rewrite Rp. destruct (cmp (vars (nth p a 0%nat)) (vars (nth r a 0%nat))) eqn:Q; [|reflexivity]. pose proof (Tr _ _ _ C Q) as T. rewrite Irr in T. discriminate.
              ** rewrite (Ro i N1 N2) in *. destruct (cmp (vars (nth p a 0%nat)) (vars (nth i a 0%nat))) eqn:Q; [|reflexivity].
                 rewrite <- (Tr _ _ _ C Q). apply Kr; auto. lia.
        -- constructor; cbn [fst snd]; auto; [discriminate|]. intros r' E. injection E as <-. split; [lia|]. split; [exact Gp|]. intros i Li Gi.
           destruct (Nat.eq_dec i p) as [->|N2]; [apply Irr|]. destruct (cmp (vars (nth p a 0%nat)) (vars (nth i a 0%nat))) eqn:Q; [|reflexivity].
           rewrite <- (Tr _ _ _ C Q). apply Kr; auto. lia.
      * constructor; cbn [fst snd]; auto; [discriminate|]. intros r' E. injection E as <-. split; [lia|]. split; [exact Gr|]. intros i Li Gi.
        destruct (Nat.eq_dec i p) as [->|N2]; [exact C|]. apply Kr; auto. lia.
    + constructor; cbn [fst snd]; auto; [discriminate|]. intros r' E. injection E as <-. split; [lia|]. split; [exact Gp|]. intros i Li Gi.
      destruct (Nat.eq_dec i p) as [->|N2]; [apply Irr|]. rewrite (N eq_refl i) in Gi by lia. discriminate.
Qed.
Lemma scan_all a0 reorder : Inv a0 (length a0) (fold_left (scan_step vars cmp reorder) (seq 0 (length a0)) (a0, None, 0%nat)).
Proof.
  assert (H : forall k, (k <= length a0)%nat -> Inv a0 k (fold_left (scan_step vars cmp reorder) (seq 0 k) (a0, None, 0%nat))).
  { induction k as [|k IH]; intros L.
    - constructor; cbn [fst snd seq fold_left]; auto; [intros x; reflexivity|intros _ i Li; lia|discriminate].
    - rewrite seq_S, fold_left_app. cbn [fold_left]. apply scan_inv; [lia|]. apply IH. lia. }
  apply H. lia.
Qed.
End Pick.
