(** reverse/2, length/2, nth0/3, memberchk/2 and member/2. *)
Require Import ZArith List Bool Lia.
Require Import Verif.Term_Model Verif.Heap_Model Verif.Heap_Proofs Verif.Unify_Model Verif.Unify_Spec
  Verif.Unify_Proofs Verif.Unify_Proofs2 Verif.Binding_Model Verif.Binding_Proofs Verif.Copy_Model
  Verif.List_Model Verif.List_Spec Verif.List_Proofs Verif.List_Steps Verif.List_Append.
Import ListNotations.
Open Scope Z_scope.

Local Notation word_ok c s w := (wf_word (LSSA c) (mm (hm s)) w).

Lemma same_view s nu w u t : derefs (mm (hm s)) w u -> same_tree (view s nu w) t -> same_tree (view s nu u) t.
Proof. intros D H. eapply same_tree_trans; [apply same_tree_sym, view_derefs; exact D|exact H]. Qed.
Lemma unbound_of s w a : derefs (mm (hm s)) w (REF a) -> unbound s w.
Proof.
  intros D. exists a. split; auto.
  destruct (derefs_result _ _ _ D) as [(b & Q & E)|N]; [injection Q as <-; auto|destruct (N a eq_refl)].
Qed.
(** a new cell keeps chains *)
Lemma derefs_mono m m' w u : (forall a v, m a = Some v -> m' a = Some v) -> derefs m w u -> derefs m' w u.
Proof. intros K. induction 1; [apply drf_self|eapply drf_step|apply drf_other]; eauto. Qed.

Section Reverse.
Variable nil : Z.
Local Notation tnil := (tatom nil).
(** [l2] is the reverse of [l1] followed by [acc] *)
Definition is_rev (k : nat) (l1 acc l2 : tree) : Prop :=
  exists xs, length xs = k /\ same_tree l1 (tlist xs tnil) /\ same_tree l2 (tlist (rev xs) acc).
Lemma inv_rev k : inv3 (is_rev k).
Proof.
  intros a a' b b' d d' A B D (xs & L & H1 & H3). exists xs. split; auto. split.
  - eapply same_tree_trans; [apply same_tree_sym; exact A|exact H1].
  - eapply same_tree_trans; [apply same_tree_sym; exact D|].
    eapply same_tree_trans; [exact H3|]. now apply same_tlist.
Qed.
Lemma rev_0 l1 acc l2 : is_rev 0 l1 acc l2 <-> same_tree l1 tnil /\ same_tree acc l2.
Proof.
  split.
  - intros (xs & L & H1 & H3). destruct xs; [|discriminate]. split; auto. now apply same_tree_sym.
  - intros [H1 H3]. exists []. split; auto. split; auto. now apply same_tree_sym.
Qed.
Lemma rev_S k l1 acc l2 : is_rev (S k) l1 acc l2 ->
  exists h t, same_tree l1 (tcons h t) /\ is_rev k t (tcons h acc) l2.
Proof.
  intros (xs & L & H1 & H3). destruct xs as [|h xs]; [discriminate|].
  exists h, (tlist xs tnil). split; auto. exists xs. split; [now injection L|]. split; [apply same_tree_refl|].
  cbn [rev] in H3. now rewrite tlist_app in H3.
Qed.
Lemma rev_cons k h t l1 acc acc' l2 : same_tree l1 (tcons h t) -> same_tree acc' (tcons h acc) ->
  (is_rev k t acc' l2 <-> is_rev (S k) l1 acc l2).
Proof.
  intros A1 A2. split.
  - intros (xs & L & H1 & H3). exists (h :: xs). split; [cbn; auto|]. split.
    + eapply same_tree_trans; [exact A1|]. cbn. apply same_tcons; auto. apply same_tree_refl.
    + cbn [rev]. rewrite tlist_app. eapply same_tree_trans; [exact H3|]. now apply same_tlist.
  - intros H. destruct (rev_S _ _ _ _ H) as (h2 & t2 & Q1 & Q).
    destruct (tcons_inv _ _ _ _ (same_tree_trans _ _ _ (same_tree_sym _ _ A1) Q1)) as [K1 K2].
    eapply inv_rev; [apply same_tree_sym; exact K2| |apply same_tree_refl|exact Q].
    apply same_tree_sym. eapply same_tree_trans; [exact A2|]. apply same_tcons; auto. apply same_tree_refl.
Qed.
Lemma rev_len k l1 acc l2 xs ys : is_rev k l1 acc l2 -> same_tree acc (tlist xs tnil) ->
  same_tree l2 (tlist ys tnil) -> length ys = (k + length xs)%nat.
Proof.
  intros (zs & <- & H1 & H3) A2 A3. rewrite <- (rev_length zs), <- app_length. apply (tlist_len nil).
  eapply same_tree_trans; [apply same_tree_sym; exact A3|]. eapply same_tree_trans; [exact H3|].
  rewrite tlist_app. now apply same_tlist.
Qed.

Variable c : cfg.
Definition RV (k : nat) (l1 acc l2 : word) : goal := fun I => is_rev k (I l1) (I acc) (I l2).
Lemma resp_RV s k l1 acc l2 : word_ok c s l1 -> word_ok c s acc -> word_ok c s l2 -> resp c s (RV k l1 acc l2).
Proof. intros. apply (resp3 c s (is_rev k)); auto. apply inv_rev. Qed.

Definition rwalked (s : hst) (l1 acc l2 : word) (len : Z) (r : word * word * word * Z * hst) : Prop :=
  let '(w, l1', acc', len', s') := r in
  exists n, (forall j, (j < n)%nat -> no_solution s (RV j l1 acc l2)) /\
    (forall j, step c s s' (RV (n + j) l1 acc l2) (RV j l1' acc' l2)) /\
    word_ok c s' l1' /\ word_ok c s' l2 /\ word_ok c s' acc' /\ glob c acc' /\ derefs (mm (hm s')) l1' w /\
    (forall a, w <> LST a) /\ len' = len + Z.of_nat n /\ len' <= 2147483647 /\
    always_list nil s' (Z.to_nat len') acc'.

(** adding a cell in front of the accumulator *)
Lemma push_acc s s1 l1 x y acc acc' l2 j C : word_ok c s l1 -> word_ok c s acc -> word_ok c s l2 ->
  step c s s1 C top -> (forall nu, RV (S j) l1 acc l2 (view s nu) -> C (view s nu)) ->
  word_ok c s1 x -> word_ok c s1 y -> word_ok c s1 acc' ->
  (forall nu, same_tree (view s1 nu l1) (tcons (view s1 nu x) (view s1 nu y))) ->
  (forall nu, same_tree (view s1 nu acc') (tcons (view s1 nu x) (view s1 nu acc))) ->
  step c s s1 (RV (S j) l1 acc l2) (RV j y acc' l2).
Proof.
  intros W1 Wa W2 S1 HC Wx Wy Wa' T1 Ta. eapply step_of; [exact S1|apply resp_RV; auto| |exact HC|].
  - apply resp_RV; auto. apply (st_words _ _ _ _ _ S1). auto.
  - intros nu. unfold RV. apply rev_cons with (h := view s1 nu x); [apply T1|apply Ta].
Qed.

Lemma rwalk_ok k fuel : forall s l1 acc l2 len, state_ok c s -> word_ok c s l1 -> word_ok c s acc ->
  word_ok c s l2 -> glob c acc -> 0 <= len -> len + Z.of_nat k <= 2147483647 -> always_list nil s (Z.to_nat len) acc ->
  runs (reverse_walk k fuel c s l1 acc len) (rspec (rwalked s l1 acc l2 len) False).
Proof.
  induction k as [|k IH]; intros s l1 acc l2 len O W1 Wa W2 Ga Hl Hk AL; [exact I|]. cbn [reverse_walk].
  eapply runs_bind; [apply (runs_deref c s l1 fuel O W1)|]. intros u (D & Wu & Ru).
  assert (Done : (forall a, u <> LST a) -> rwalked s l1 acc l2 len (u, l1, acc, len, s)).
  { intros N. exists 0%nat. split; [intros; lia|]. split.
    - intros j. cbn [Nat.add]. apply step_refl; auto; [apply resp_RV; auto|apply resp_RV; auto|reflexivity].
    - repeat split; auto; lia. }
  destruct u as [a|a|a|i|a|a|i]; try (apply Done; discriminate).
  destruct (read_facts c s l1 a O D Wu) as (x & y & Ex & Ey & Wx & Wy & Gx & Gy & T).
  rewrite (runs_rd c s a x O Ex). cbn [bind].
  assert (P := cons_cell_step c s x acc O Wx Wa Gx Ga).
  destruct (cons_cell c s x acc) as [r| |]; [|destruct P|exact I]. cbn [runs bind] in *.
  destruct r as [[acc' s1]| | | |]; cbn [lbind rspec runs] in *; auto.
  destruct P as (S1 & Wa' & Ga' & _ & Ta & Km). specialize (S1 top (resp_top c s)).
  assert (O1 := st_ok _ _ _ _ _ S1). assert (K1 := st_words _ _ _ _ _ S1).
  unfold incr. destruct (Z.ltb_spec len 2147483647); [|lia]. cbn [bind].
  destruct (cell_after c s s1 _ _ l1 a x S1 O W1 D Ex) as (y1 & Ey1 & Wy1 & Gy1 & T1).
  rewrite (runs_rd c s1 (a + 1) y1 O1 Ey1). cbn [bind].
  assert (St : forall j, step c s s1 (RV (S j) l1 acc l2) (RV j y1 acc' l2)).
  { intros j. eapply (push_acc s s1 l1 x y1 acc acc' l2 j top); auto; try (apply K1; auto; fail). intros nu _. exact I. }
  assert (AL1 : always_list nil s1 (Z.to_nat (len + 1)) acc').
  { intros nu. destruct (st_down _ _ _ _ _ S1 nu) as [nu0 Ag]. destruct (AL nu0) as (xs & L & Q).
    exists (view s1 nu x :: xs). split; [cbn [length]; lia|].
    eapply same_tree_trans; [apply Ta|]. cbn. apply same_tcons; [apply same_tree_refl|].
    eapply same_tree_trans; [apply Ag; exact Wa|exact Q]. }
  eapply runs_imp; [apply (IH s1 y1 acc' l2 (len + 1)); auto; lia|].
  intros [[[[[w l1'] acc''] len'] s']| | | |]; cbn; auto.
  intros (n & N & Sn & Q1 & Q2 & Q3 & Q4 & Q5 & Q6 & Q7 & Q8 & Q9). exists (S n). split; [|split].
  - intros [|j] Hj nu.
    + intros Q. apply rev_0 in Q as [Q _]. eapply tcons_not_atom. eapply same_tree_trans; [|exact Q].
      apply same_tree_sym, T.
    + revert nu. eapply step_none; [apply St|]. apply N. lia.
  - intros j. eapply step_trans; [apply (St (n + j)%nat)|]. apply Sn.
  - repeat split; auto; lia.
Qed.

Lemma rmore_ok fuel : forall n s l1 acc l2, state_ok c s -> word_ok c s l1 -> word_ok c s acc ->
  word_ok c s l2 -> glob c acc -> unbound s l1 ->
  runs (reverse_more n fuel c s l1 acc) (rspec (fun r => let '(l1', acc', s') := r in
    step c s s' (RV n l1 acc l2) (RV 0 l1' acc' l2) /\ word_ok c s' l1' /\ word_ok c s' acc' /\ word_ok c s' l2 /\
    unbound s' l1') False).
Proof.
  induction n as [|n IH]; intros s l1 acc l2 O W1 Wa W2 Ga U; cbn [reverse_more].
  - cbn. split; [|auto]. apply step_refl; auto; [apply resp_RV; auto|apply resp_RV; auto|reflexivity].
  - assert (P := open_step false c s l1 fuel O W1 ltac:(intros _; destruct U as (b & Q & _); exists b; auto)).
    destruct (open_list false fuel c s l1) as [r| |]; [|destruct P|exact I]. cbn [runs bind] in *.
    destruct r as [[[x l1'] s1]| | | |]; cbn [lbind rspec runs] in *; auto; [|destruct P; discriminate].
    destruct P as (S1 & Wx & W1' & Gx & G1 & T1 & Sh).
    assert (O1 := st_ok _ _ _ _ _ S1). assert (K1 := st_words _ _ _ _ _ S1).
    assert (U1 : unbound s1 l1').
    { destruct U as (b & Db & Eb). destruct Sh as [(a & Da & _)|(a & Da & Ea & Hr & -> & -> & ->)].
      - exfalso. assert (Q := derefs_det _ _ _ Db _ Da). discriminate.
      - apply (unbound_of _ _ (hH s + 1)). apply drf_self. now apply write2_new. }
    assert (P := cons_cell_step c s1 x acc O1 Wx (K1 _ Wa) Gx Ga).
    destruct (cons_cell c s1 x acc) as [r| |]; [|destruct P|exact I]. cbn [runs bind] in *.
    destruct r as [[acc' s2]| | | |]; cbn [lbind rspec runs] in *; auto.
    destruct P as (S2 & Wa' & Ga' & _ & Ta & Km).
    assert (S2t := S2 top (resp_top c s1)).
    assert (O2 := st_ok _ _ _ _ _ S2t). assert (K2 := st_words _ _ _ _ _ S2t).
    assert (U2 : unbound s2 l1').
    { destruct U1 as (b & Db & Eb). exists b. split; auto. eapply derefs_mono; eauto. }
    eapply runs_imp; [apply (IH s2 l1' acc' l2); auto|].
    intros [[[l1'' acc''] s']| | | |]; cbn; auto. intros (S3 & Q). split; auto.
    eapply step_trans; [|exact S3].
    eapply push_acc with (x := x) (C := fun I => is_cons (I l1)); auto.
    + eapply step_trans; [exact S1|exact S2t].
    + intros nu H. destruct (rev_S _ _ _ _ H) as (h & t & Q1 & _). exists h, t. exact Q1.
    + intros nu. destruct (st_down _ _ _ _ _ S2t nu) as [nu1 Ag].
      eapply same_tree_trans; [apply Ag; auto|]. eapply same_tree_trans; [apply T1|].
      apply same_tcons; apply same_tree_sym, Ag; auto.
Qed.

Lemma rend_ok s l1 acc l2 fuel : state_ok c s -> word_ok c s l1 -> word_ok c s acc -> word_ok c s l2 -> unbound s l1 ->
  runs (reverse_end nil fuel c s l1 acc l2)
    (rspec (fun s' => step c s s' (RV 0 l1 acc l2) top) (no_solution s (RV 0 l1 acc l2))).
Proof.
  intros O W1 Wa W2 U. unfold reverse_end.
  eapply runs_imp; [apply (end_ok nil c s l1 acc l2 fuel O W1 Wa W2 U)|].
  assert (Q : forall I, RV 0 l1 acc l2 I <-> A nil 0 l1 acc l2 I).
  { intros I. unfold RV, A. now rewrite rev_0, append_0. }
  intros [s'| | | |]; cbn; auto.
  - intros S1. eapply step_of; [exact S1|apply resp_RV; auto|apply resp_top| |].
    + intros nu. apply Q.
    + intros nu. rewrite Q. apply (st_iff _ _ _ _ _ S1).
  - intros N nu H. apply (N nu), Q. exact H.
Qed.

Variables (s0 : hst) (E : nat -> goal).
Definition RInv (b : nat) (ch : chp) : Prop :=
  exists b0, b = S b0 /\ state_ok c (c_s ch) /\
    (forall j, step c s0 (c_s ch) (E (b0 + j)) (RV j (c_0 ch) (c_2 ch) (c_1 ch))) /\
    word_ok c (c_s ch) (c_0 ch) /\ word_ok c (c_s ch) (c_1 ch) /\ word_ok c (c_s ch) (c_2 ch) /\
    glob c (c_2 ch) /\ unbound (c_s ch) (c_0 ch).

Lemma rvar_ok s l1 acc l2 b fuel : (forall j, step c s0 s (E (b + j)) (RV j l1 acc l2)) -> state_ok c s ->
  word_ok c s l1 -> word_ok c s acc -> word_ok c s l2 -> glob c acc -> unbound s l1 ->
  runs (do x <- reverse_end nil fuel c s l1 acc l2; Ret (x, Some (Chp s l1 l2 acc))) (res_ok c s0 E RInv b).
Proof.
  intros St O W1 Wa W2 Ga U. eapply runs_bind; [apply (rend_ok s l1 acc l2 fuel); auto|]. intros x Hx. cbn [runs].
  assert (Nx : RInv (S b) (Chp s l1 l2 acc)).
  { exists b. split; [reflexivity|]. cbn. tauto. }
  assert (Q := St 0%nat). rewrite Nat.add_0_r in Q.
  destruct x as [s'| | | |]; cbn [rspec] in Hx; unfold res_ok; cbn [fst snd next]; auto; try tauto.
  - exists b. split; [lia|]. split; [intros j Hj; lia|]. split; auto. apply (step_goal c s0 s' (E b)).
    eapply step_trans; eauto.
  - exists (S b). split; [lia|]. split; auto. intros j Hj. assert (j = b) by lia. subst j. eapply step_none; eauto.
Qed.

Lemma alt_reverse_ok fuel b ch : RInv b ch -> runs (Reverse_Alt_0 nil fuel c ch) (res_ok c s0 E RInv b).
Proof.
  intros (b0 & -> & O & St & W0 & W1 & W2 & G2 & U). unfold Reverse_Alt_0.
  set (s := c_s ch) in *. set (l1 := c_0 ch) in *. set (l2 := c_1 ch) in *. set (acc := c_2 ch) in *.
  assert (VL : var_or_list s l1) by (destruct U as (a & Q & _); exists a; auto).
  eapply runs_bind; [apply (open_step false c s l1 fuel O W0); auto|].
  intros [[[x l1'] s1]| | | |] H; cbn [rspec] in H; try exact I; try (destruct H; discriminate); try tauto.
  destruct H as (S1 & Wx & W1' & Gx & G1 & T1 & Sh). assert (K1 := st_words _ _ _ _ _ S1).
  assert (O1 := st_ok _ _ _ _ _ S1).
  assert (U1 : unbound s1 l1').
  { destruct U as (a0 & Db & Eb). destruct Sh as [(a & Da & _)|(a & Da & Ea & Hr & -> & -> & ->)].
    - exfalso. assert (Q := derefs_det _ _ _ Db _ Da). discriminate.
    - apply (unbound_of _ _ (hH s + 1)). apply drf_self. now apply write2_new. }
  eapply runs_bind; [apply (cons_cell_step c s1 x acc O1 Wx (K1 _ W2) Gx G2)|].
  intros [[acc' s2]| | | |] H; cbn [rspec] in H; try exact I; try tauto.
  destruct H as (S2 & Wa' & Ga' & _ & Ta & Km). assert (S2t := S2 top (resp_top c s1)).
  assert (O2 := st_ok _ _ _ _ _ S2t). assert (K2 := st_words _ _ _ _ _ S2t).
  apply rvar_ok; auto.
  - intros j. replace (S b0 + j)%nat with (b0 + S j)%nat by lia. eapply step_trans; [apply St|].
    eapply push_acc with (x := x) (C := fun I => is_cons (I l1)); auto.
    + eapply step_trans; [exact S1|exact S2t].
    + intros nu H. destruct (rev_S _ _ _ _ H) as (h & t & Q1 & _). exists h, t. exact Q1.
    + intros nu. destruct (st_down _ _ _ _ _ S2t nu) as [nu1 Ag].
      eapply same_tree_trans; [apply Ag; auto|]. eapply same_tree_trans; [apply T1|].
      apply same_tcons; apply same_tree_sym, Ag; auto.
  - destruct U1 as (a & Db & Eb). exists a. split; auto. eapply derefs_mono; eauto.
Qed.
End Reverse.

Section Reverse2.
Variables (nil : Z) (c : cfg).
Local Notation RV := (RV nil).

Lemma reverse_ok s l1 l2 k fuel : state_ok c s -> word_ok c s l1 -> word_ok c s l2 ->
  Z.of_nat k < 2147483647 ->
  let E := fun j I => is_reverse nil j (I l1) (I l2) in
  runs (Reverse_2 nil k fuel c s l1 l2) (res_ok c s E (RInv nil c s E) 0).
Proof.
  intros O W1 W2 Hk E. unfold Reverse_2.
  assert (Wn : word_ok c s (ATM nil)) by exact I.
  assert (Tn : forall t nu, same_tree (view t nu (ATM nil)) (tatom nil)) by (intros; apply lab_atom).
  assert (E0 : forall j, step c s s (E j) (RV j l1 (ATM nil) l2)).
  { intros j. apply step_refl; auto.
    - apply (resp2 c s (is_reverse nil j)); auto. intros a a' b b' A B (xs & L & H1 & H2). exists xs. split; auto. split.
      + eapply same_tree_trans; [apply same_tree_sym; exact A|exact H1].
      + eapply same_tree_trans; [apply same_tree_sym; exact B|exact H2].
    - apply resp_RV; auto.
    - intros nu. unfold List_More.RV, E, is_rev, is_reverse. split; intros (xs & L & H1 & H2); exists xs; (split; [exact L|split; [exact H1|]]);
        (eapply same_tree_trans; [exact H2|]); apply same_tlist; [|apply same_tree_sym]; apply Tn. }
  eapply runs_bind; [apply (rwalk_ok nil c k fuel s l1 (ATM nil) l2 0); auto; try lia; try discriminate|].
  { intros nu. exists []. split; [reflexivity|]. apply Tn. }
  intros [[[[[w l1'] acc] len1] s1]| | | |] H; cbn [rspec] in H; try exact I; try tauto.
  destruct H as (n & N & St & W1' & W2' & Wa & Ga & D & NL & -> & Hl & AL).
  assert (St' : forall j, step c s s1 (E (n + j)%nat) (RV j l1' acc l2)).
  { intros j. eapply step_trans; [apply E0|apply St]. }
  assert (N' : forall j, (j < n)%nat -> no_solution s (E j)).
  { intros j Hj. eapply step_none; [apply E0|]. apply N. auto. }
  clear St N. assert (O1 := st_ok _ _ _ _ _ (St' 0%nat)).
  assert (Ww := derefs_wf _ _ _ _ (proj1 O1) D W1').
  set (Inv := RInv nil c s E).
  assert (None_all : (forall j, no_solution s1 (RV j l1' acc l2)) -> res_ok c s E Inv 0 (No, None)).
  { intros Q. exists 0%nat. split; [lia|]. split; [intros j Hj; lia|]. intros j _.
    destruct (Compare_dec.le_lt_dec n j) as [L|L]; [|apply N'; auto].
    replace j with (n + (j - n))%nat by lia. eapply step_none; [apply St'|]. apply Q. }
  assert (One : forall d x, (forall j, j <> d -> no_solution s1 (RV j l1' acc l2)) ->
     rspec (fun s' => step c s1 s' (RV d l1' acc l2) top) (no_solution s1 (RV d l1' acc l2)) x ->
     res_ok c s E Inv 0 (x, None)).
  { intros d x Nd Hx.
    assert (Nj : forall j, j <> (n + d)%nat -> no_solution s (E j)).
    { intros j Hj. destruct (Compare_dec.le_lt_dec n j) as [L|L]; [|apply N'; auto].
      replace j with (n + (j - n))%nat by lia. eapply step_none; [apply St'|]. apply Nd. lia. }
    destruct x as [s'| | | |]; cbn [rspec] in Hx; try exact I; try tauto.
    - exists (n + d)%nat. split; [lia|]. split; [intros j Hj; apply Nj; lia|]. split.
      + apply (step_goal c s s' (E (n + d)%nat)). eapply step_trans; [apply St'|exact Hx].
      + intros j Hj. apply Nj. lia.
    - exists 0%nat. split; [lia|]. split; [intros j Hj; lia|]. intros j _.
      destruct (PeanoNat.Nat.eq_dec j (n + d)) as [->|Q]; [|auto]. eapply step_none; [apply St'|exact Hx]. }
  assert (Other : (forall a, w <> REF a) -> w <> ATM nil -> res_ok c s E Inv 0 (No, None)).
  { intros N1 N2. apply None_all. intros [|j] nu H.
    + apply rev_0 in H as [H _]. eapply (not_atom (mm (hm s1)) nu w nil); auto. eapply same_view; eauto.
    + destruct (rev_S _ _ _ _ _ H) as (h & t & Q1 & _).
      eapply (not_cons (LSSA c) (mm (hm s1)) nu w); eauto. eapply inv_cons; [apply view_derefs; exact D|]. exists h, t. exact Q1. }
  assert (Fin : (forall a, w <> REF a) -> runs (match w with ATM i => if i =? nil then det (unify fuel c s1 acc l2) else Ret (No, None) | _ => Ret (No, None) end) (res_ok c s E Inv 0)).
  { intros N1. destruct w as [a|a|a|i|a|a|i]; try (apply Other; [auto|discriminate]).
    destruct (Z.eqb_spec i nil) as [->|Ni]; [|apply Other; [auto|congruence]].
    assert (T1 : forall nu, same_tree (view s1 nu l1') (tatom nil)).
    { intros nu. eapply same_tree_trans; [apply view_derefs; exact D|]. apply lab_atom. }
    unfold det. eapply runs_bind; [apply (unify_step c s1 acc l2 fuel); auto|]. intros x Hx. cbn [runs].
    apply (One 0%nat).
    * intros [|j] Hj; [lia|]. intros nu H. destruct (rev_S _ _ _ _ _ H) as (h & t & Q1 & _).
      eapply tcons_not_atom. eapply same_tree_trans; [apply same_tree_sym; exact Q1|apply T1].
    * destruct x as [s'| | | |]; cbn [rspec] in *; auto.
      -- eapply step_trans; [|exact Hx]. apply step_refl; auto; [apply resp_RV; auto|apply (resp2 _ _ same_tree); auto; apply inv_same|].
         intros nu. unfold List_More.RV. rewrite rev_0. specialize (T1 nu). tauto.
      -- intros nu H. apply rev_0 in H as [_ H]. exact (Hx nu H). }
  destruct w as [a|a|a|i|a|a|i]; try (apply Fin; discriminate).
  assert (U : unbound s1 l1') by (eapply unbound_of; eauto).
  eapply runs_bind; [apply (length_spec nil c s1 fuel O1 k 0 l2 W2'); lia|]. intros len2 (B2 & L2).
  destruct (Z.leb_spec 0 len2) as [P2|P2].
  - destruct (L2 P2) as [_ A2]. rewrite Z.sub_0_r in A2.
    assert (Len : forall j nu, RV j l1' acc l2 (view s1 nu) -> Z.to_nat len2 = (j + n)%nat).
    { intros j nu H. destruct (A2 nu) as (ys & <- & Q2). destruct (AL nu) as (xs & Lx & Q3).
      replace n with (length xs) by lia. eapply rev_len; eauto. }
    rewrite Z.add_0_l. destruct (Z.ltb_spec len2 (Z.of_nat n)).
    + apply None_all. intros j nu Hj. apply Len in Hj. lia.
    + unfold det. set (d := Z.to_nat (len2 - Z.of_nat n)).
      assert (P := rmore_ok nil c fuel d s1 l1' acc l2 O1 W1' Wa W2' Ga U).
      destruct (reverse_more d fuel c s1 l1' acc) as [r| |]; [|destruct P|exact I]. cbn [runs bind] in *.
      destruct r as [[[l1'' acc''] s2]| | | |]; cbn [lbind rspec runs bind] in *; try exact I; try tauto.
      destruct P as (S2 & W1'' & Wa'' & W2'' & U2).
      eapply runs_bind; [apply (rend_ok nil c s2 l1'' acc'' l2 fuel (st_ok _ _ _ _ _ S2) W1'' Wa'' W2'' U2)|].
      intros x Hx. cbn [runs]. apply (One d).
      * intros j Hj nu Q. apply Len in Q. unfold d in Hj. lia.
      * destruct x; cbn [rspec] in *; auto; [eapply step_trans; eauto|eapply step_none; eauto].
  - eapply runs_imp; [apply (rvar_ok nil c s E s1 l1' acc l2 n fuel); auto|].
    assert (Nn : forall b', (n <= b')%nat -> none_in s E n b' -> none_in s E 0 b').
    { intros b' L Q j Hj. destruct (Compare_dec.le_lt_dec n j) as [L'|L']; [apply Q; lia|apply N'; auto]. }
    intros [[s'| | | |] o]; unfold res_ok; cbn [fst snd]; auto.
    + intros (k' & L & Q1 & Q2 & Q3). exists k'. split; [lia|]. split; [apply Nn; auto|]. auto.
    + intros (k' & L & Q1 & Q2). exists k'. split; [lia|]. split; [apply Nn; auto|]. auto.
    + intros Q j _. destruct (Compare_dec.le_lt_dec n j) as [L'|L']; [apply Q; lia|apply N'; auto].
Qed.
End Reverse2.
