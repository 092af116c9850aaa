(** Backtracking, and append/3. *)
Require Import ZArith List Bool Lia.
Require Import Verif.Term_Model Verif.Heap_Model Verif.Heap_Proofs Verif.Unify_Model Verif.Unify_Spec
  Verif.Unify_Proofs Verif.Unify_Proofs2 Verif.Binding_Model Verif.Binding_Proofs Verif.Copy_Model
  Verif.List_Model Verif.List_Spec Verif.List_Proofs Verif.List_Steps.
Import ListNotations.
Open Scope Z_scope.

Local Notation word_ok c s w := (wf_word (LSSA c) (mm (hm s)) w).

(** ** Exploring the alternatives *)
Section Explore.
Variables (c : cfg) (s0 : hst) (E : nat -> goal) (alt : chp -> outcome res) (Inv : nat -> chp -> Prop).

Definition none_in (b b' : nat) : Prop := forall j, (b <= j < b')%nat -> no_solution s0 (E j).
Definition none_from (b : nat) : Prop := forall j, (b <= j)%nat -> no_solution s0 (E j).
Definition next (b : nat) (o : option chp) : Prop :=
  match o with None => none_from b | Some ch => Inv b ch end.
Definition res_ok (b : nat) (r : res) : Prop :=
  match fst r with
  | Ok s' => exists k, (b <= k)%nat /\ none_in b k /\ answers_goal c s0 s' (E k) /\ next (S k) (snd r)
  | No => exists b', (b <= b')%nat /\ none_in b b' /\ next b' (snd r)
  | Err => none_from b
  | Fatal | Fd => True
  end.

Lemma answers_weaken b' l more : answers c s0 E b' l more -> forall b, (b <= b')%nat -> none_in b b' ->
  answers c s0 E b l more.
Proof.
  assert (K : forall b b', (b <= b')%nat -> none_in b b' -> none_from b' -> none_from b).
  { intros b b0 L N F j Hj. destruct (Compare_dec.le_lt_dec b0 j); [apply F; auto|apply N; lia]. }
  induction 1 as [b' F|b'|b' k s' l more Lk N G A IH|b' l more A IH|b' l more F|b' l more|b' l more]; intros b L Nb.
  - apply ans_end. exact (K _ _ L Nb F).
  - apply ans_more.
  - apply (ans_ok c s0 E b k); auto; [lia|]. intros j Hj.
    destruct (Compare_dec.le_lt_dec b' j); [apply N; lia|apply Nb; lia].
  - apply ans_no; auto.
  - apply ans_err. exact (K _ _ L Nb F).
  - apply ans_fatal.
  - apply ans_fd.
Qed.

Hypothesis alt_ok : forall b ch, Inv b ch -> runs (alt ch) (res_ok b).

Lemma explore_ok n : forall b r, res_ok b r ->
  runs (explore alt n r) (fun x => answers c s0 E b (fst x) (snd x)).
Proof.
  induction n as [|n IH]; intros b [r o] H; destruct r as [s'| | | |]; destruct o as [ch|]; cbn in *;
    try (apply ans_fatal); try (apply ans_fd); try (apply ans_err; exact H).
  - destruct H as (k & L & N & G & X). apply (ans_ok _ _ _ _ k); auto. apply ans_more.
  - destruct H as (k & L & N & G & X). apply (ans_ok _ _ _ _ k); auto. apply ans_end. exact X.
  - apply ans_no. apply ans_more.
  - destruct H as (k & L & N & X). apply ans_no. eapply answers_weaken; [|exact L|exact N]. apply ans_end. exact X.
  - destruct H as (k & L & N & G & X). eapply runs_bind; [apply (alt_ok (S k) ch X)|].
    intros r' Hr'. eapply runs_bind; [apply (IH (S k) r' Hr')|]. intros x Hx. cbn.
    apply (ans_ok _ _ _ _ k); auto.
  - destruct H as (k & L & N & G & X). apply (ans_ok _ _ _ _ k); auto. apply ans_end. exact X.
  - destruct H as (k & L & N & X). eapply runs_bind; [apply (alt_ok k ch X)|].
    intros r' Hr'. eapply runs_bind; [apply (IH k r' Hr')|]. intros x Hx. cbn.
    apply ans_no. eapply answers_weaken; [exact Hx|exact L|exact N].
  - destruct H as (k & L & N & X). apply ans_no. eapply answers_weaken; [|exact L|exact N]. apply ans_end. exact X.
Qed.
End Explore.

(** ** Reading a cell again after a step *)
Lemma cell_after c s s1 C C' w a x : step c s s1 C C' -> state_ok c s -> word_ok c s w ->
  derefs (mm (hm s)) w (LST a) -> mm (hm s) a = Some (Word x) ->
  exists y, mm (hm s1) (a + 1) = Some (Word y) /\ word_ok c s1 y /\ glob c y /\
    forall nu, same_tree (view s1 nu w) (tcons (view s1 nu x) (view s1 nu y)).
Proof.
  intros S1 O Ww D Ex. assert (Wl := derefs_wf _ _ _ _ (proj1 O) D Ww).
  destruct (read_facts c s w a O D Wl) as (x' & y0 & Ex' & Ey0 & Wx & Wy0 & Gx & Gy0 & T).
  assert (x' = x) by congruence. subst x'.
  assert (O1 := st_ok _ _ _ _ _ S1). assert (Wl1 := st_words _ _ _ _ _ S1 _ Wl).
  assert (DL : derefs (mm (hm s1)) (LST a) (LST a)) by (apply drf_other; discriminate).
  destruct (read_facts c s1 (LST a) a O1 DL Wl1) as (x1 & y1 & Ex1 & Ey1 & Wx1 & Wy1 & Gx1 & Gy1 & T1).
  exists y1. split; auto. split; auto. split; auto. intros nu.
  destruct (st_down _ _ _ _ _ S1 nu) as [nu0 A].
  assert (Sw : same_tree (view s1 nu w) (view s1 nu (LST a))).
  { eapply same_tree_trans; [apply A; exact Ww|]. eapply same_tree_trans; [apply view_derefs; exact D|].
    apply same_tree_sym, A. exact Wl. }
  assert (S0 : same_tree (view s1 nu w) (tcons (view s1 nu x) (view s1 nu y0))).
  { eapply same_tree_trans; [apply A; exact Ww|]. eapply same_tree_trans; [apply T|].
    apply same_tcons; apply same_tree_sym, A; auto. }
  destruct (tcons_inv _ _ _ _ (same_tree_trans _ _ _ (same_tree_sym _ _ S0) (same_tree_trans _ _ _ Sw (T1 nu)))) as [Q1 Q2].
  eapply same_tree_trans; [exact S0|]. apply same_tcons; [apply same_tree_refl|exact Q2].
Qed.

(** ** Lists of trees *)
Lemma tcons_hd h t h' t' : same_tree (tcons h t) (tcons h' t') -> same_tree h h'.
Proof. intros Q. apply (tcons_inv _ _ _ _ Q). Qed.
Lemma tcons_tl h t h' t' : same_tree (tcons h t) (tcons h' t') -> same_tree t t'.
Proof. intros Q. apply (tcons_inv _ _ _ _ Q). Qed.
Lemma same_tlist xs t t' : same_tree t t' -> same_tree (tlist xs t) (tlist xs t').
Proof. intros A. induction xs as [|x xs IH]; cbn; auto. apply same_tcons; auto. apply same_tree_refl. Qed.
Lemma tlist_len nil : forall xs ys, same_tree (tlist xs (tatom nil)) (tlist ys (tatom nil)) -> length xs = length ys.
Proof.
  induction xs as [|x xs IH]; intros [|y ys] A; cbn in *; auto.
  - exfalso. eapply tcons_not_atom. apply same_tree_sym. exact A.
  - exfalso. eapply tcons_not_atom. exact A.
  - f_equal. apply IH. eapply tcons_tl. exact A.
Qed.
Lemma tlist_app xs ys t : tlist (xs ++ ys) t = tlist xs (tlist ys t).
Proof. unfold tlist. apply fold_right_app. Qed.

Section Append.
Variable nil : Z.
Local Notation is_append := (is_append nil).
Local Notation tnil := (tatom nil).

Lemma inv_append k : inv3 (is_append k).
Proof.
  intros a a' b b' d d' A B D (xs & L & H1 & H3). exists xs. split; auto. split.
  - eapply same_tree_trans; [apply same_tree_sym; exact A|exact H1].
  - eapply same_tree_trans; [apply same_tree_sym; exact D|].
    eapply same_tree_trans; [exact H3|]. now apply same_tlist.
Qed.
Lemma append_0 l1 l2 l3 : is_append 0 l1 l2 l3 <-> same_tree l1 tnil /\ same_tree l2 l3.
Proof.
  split.
  - intros (xs & L & H1 & H3). destruct xs; [|discriminate]. split; auto. now apply same_tree_sym.
  - intros [H1 H3]. exists []. split; auto. split; auto. now apply same_tree_sym.
Qed.
Lemma append_S k l1 l2 l3 : is_append (S k) l1 l2 l3 ->
  exists h t u, same_tree l1 (tcons h t) /\ same_tree l3 (tcons h u) /\ is_append k t l2 u.
Proof.
  intros (xs & L & H1 & H3). destruct xs as [|h xs]; [discriminate|].
  exists h, (tlist xs tnil), (tlist xs l2). split; auto. split; auto. exists xs.
  repeat split; auto; now injection L.
Qed.
Lemma append_cons k h h' t u l1 l2 l3 : same_tree l1 (tcons h t) -> same_tree l3 (tcons h' u) -> same_tree h h' ->
  (is_append k t l2 u <-> is_append (S k) l1 l2 l3).
Proof.
  intros A1 A3 Ah. split.
  - intros (xs & L & H1 & H3). exists (h :: xs). split; [cbn; auto|]. split.
    + eapply same_tree_trans; [exact A1|]. cbn. apply same_tcons; auto. apply same_tree_refl.
    + eapply same_tree_trans; [exact A3|]. cbn. apply same_tcons; auto. now apply same_tree_sym.
  - intros H. destruct (append_S _ _ _ _ H) as (h2 & t2 & u2 & Q1 & Q3 & Q).
    destruct (tcons_inv _ _ _ _ (same_tree_trans _ _ _ (same_tree_sym _ _ A1) Q1)) as [_ K1].
    destruct (tcons_inv _ _ _ _ (same_tree_trans _ _ _ (same_tree_sym _ _ A3) Q3)) as [_ K3].
    eapply inv_append; [apply same_tree_sym; exact K1|apply same_tree_refl|apply same_tree_sym; exact K3|exact Q].
Qed.
Lemma append_len k l1 l2 l3 xs ys : is_append k l1 l2 l3 -> same_tree l2 (tlist xs tnil) ->
  same_tree l3 (tlist ys tnil) -> length ys = (k + length xs)%nat.
Proof.
  intros (zs & <- & H1 & H3) A2 A3. rewrite <- app_length. apply (tlist_len nil).
  eapply same_tree_trans; [apply same_tree_sym; exact A3|]. eapply same_tree_trans; [exact H3|].
  rewrite tlist_app. now apply same_tlist.
Qed.

Variable c : cfg.
Definition A (k : nat) (l1 l2 l3 : word) : goal := fun I => is_append k (I l1) (I l2) (I l3).
Lemma resp_A s k l1 l2 l3 : word_ok c s l1 -> word_ok c s l2 -> word_ok c s l3 -> resp c s (A k l1 l2 l3).
Proof. intros. apply (resp3 c s (is_append k)); auto. apply inv_append. Qed.

Definition unbound (s : hst) (w : word) : Prop :=
  exists a, derefs (mm (hm s)) w (REF a) /\ mm (hm s) a = Some (Word (REF a)).

(** the first loop *)
Definition walked (s : hst) (l1 l2 l3 : word) (r : word * word * word * hst) : Prop :=
  let '(w, l1', l3', s') := r in
  exists n, (forall j, (j < n)%nat -> no_solution s (A j l1 l2 l3)) /\
    (forall j, step c s s' (A (n + j) l1 l2 l3) (A j l1' l2 l3')) /\
    word_ok c s' l1' /\ word_ok c s' l2 /\ word_ok c s' l3' /\ derefs (mm (hm s')) l1' w /\
    (forall a, w <> LST a).
Lemma walk_ok k fuel : forall s l1 l2 l3, state_ok c s -> word_ok c s l1 -> word_ok c s l2 -> word_ok c s l3 ->
  runs (append_walk k fuel c s l1 l3)
    (rspec (walked s l1 l2 l3) (forall j, no_solution s (A j l1 l2 l3))).
Proof.
  induction k as [|k IH]; intros s l1 l2 l3 O W1 W2 W3; [exact I|]. cbn [append_walk].
  eapply runs_bind; [apply (runs_deref c s l1 fuel O W1)|]. intros u (D & Wu & Ru).
  assert (Done : (forall a, u <> LST a) -> walked s l1 l2 l3 (u, l1, l3, s)).
  { intros N. exists 0%nat. split; [intros; lia|]. split; [|repeat split; auto].
    intros j. cbn [Nat.add]. apply step_refl; auto; [apply resp_A; auto|apply resp_A; auto|reflexivity]. }
  destruct u as [a|a|a|i|a|a|i]; try (apply Done; discriminate).
  destruct (read_facts c s l1 a O D Wu) as (x & y & Ex & Ey & Wx & Wy & Gx & Gy & T).
  rewrite (runs_rd c s a x O Ex). cbn [bind].
  assert (P := put_step true c s l3 x fuel O W3 Wx Gx ltac:(discriminate)).
  destruct (put_list true fuel c s l3 x) as [r| |]; [|destruct P|exact I]. cbn [runs bind] in *.
  destruct r as [[l3' s1]| | | |]; cbn [lbind rspec runs] in *; auto.
  - destruct P as (S1 & W3' & G3 & T3 & _).
    destruct (cell_after c s s1 _ _ l1 a x S1 O W1 D Ex) as (y1 & Ey1 & Wy1 & Gy1 & T1).
    assert (O1 := st_ok _ _ _ _ _ S1). rewrite (runs_rd c s1 (a + 1) y1 O1 Ey1). cbn [bind].
    assert (St : forall j, step c s s1 (A (S j) l1 l2 l3) (A j y1 l2 l3')).
    { intros j. eapply step_of; [exact S1| | | |].
      - apply resp_A; auto.
      - apply resp_A; auto. apply (st_words _ _ _ _ _ S1). auto.
      - intros nu H. destruct (append_S _ _ _ _ H) as (h & t & v & Q1 & Q3 & Q). exists v.
        eapply same_tree_trans; [exact Q3|]. apply same_tcons; [|apply same_tree_refl].
        apply same_tree_sym. eapply tcons_hd. eapply same_tree_trans; [apply same_tree_sym, T|exact Q1].
      - intros nu. unfold A. eapply append_cons; [apply T1|apply T3|apply same_tree_refl]. }
    eapply runs_imp; [apply (IH s1 y1 l2 l3' O1 Wy1 (st_words _ _ _ _ _ S1 _ W2) W3')|].
    assert (N0 : no_solution s (A 0 l1 l2 l3)).
    { intros nu H. apply append_0 in H as [H _]. eapply tcons_not_atom. eapply same_tree_trans; [|exact H].
      apply same_tree_sym, T. }
    intros r. destruct r as [[[[w l1'] l3''] s']| | | |]; cbn; auto.
    + intros (n & N & Sn & Q). exists (S n). split; [|split; auto].
      * intros [|j] Hj; auto. eapply step_none; [apply St|]. apply N. lia.
      * intros j. eapply step_trans; [apply (St (n + j)%nat)|]. apply Sn.
    + intros N [|j]; auto. eapply step_none; [apply St|]. apply N.
  - destruct P as [_ P]. intros [|j] nu H.
    + apply append_0 in H as [H _]. eapply tcons_not_atom. eapply same_tree_trans; [|exact H].
      apply same_tree_sym, T.
    + apply (P nu). destruct (append_S _ _ _ _ H) as (h & t & v & Q1 & Q3 & Q). exists v.
      eapply same_tree_trans; [exact Q3|]. apply same_tcons; [|apply same_tree_refl].
      apply same_tree_sym. eapply tcons_hd. eapply same_tree_trans; [apply same_tree_sym, T|exact Q1].
Qed.

(** ** L1 is a variable *)
Lemma write2_new s a u h : h = hH s -> mm (hm (write2 c s a u (REF (h + 1)))) (h + 1) = Some (Word (REF (h + 1))).
Proof. intros ->. unfold write2, alloc2, Global_Push. cbn [hm mm hH]. apply store_same. Qed.

Lemma unbound_ok s w : state_ok c s -> word_ok c s w -> unbound s w -> forall t, exists nu, same_tree (view s nu w) t.
Proof.
  intros O Ww (a & D & E) t. exists (fun _ => t). eapply same_tree_trans; [apply view_derefs; exact D|].
  now apply lab_unbound.
Qed.
Definition always_list (s : hst) (n : nat) (w : word) : Prop :=
  forall nu, exists xs, length xs = n /\ same_tree (view s nu w) (tlist xs tnil).

Lemma prefix_ok fuel : forall n m s l1 l2 l3, state_ok c s -> word_ok c s l1 -> word_ok c s l2 -> word_ok c s l3 ->
  unbound s l1 -> always_list s (n + m) l3 ->
  runs (append_prefix n fuel c s l1 l3) (rspec (fun r => let '(l1', l3', s') := r in
    step c s s' (A n l1 l2 l3) (A 0 l1' l2 l3') /\ word_ok c s' l1' /\ word_ok c s' l2 /\ word_ok c s' l3' /\
    unbound s' l1') False).
Proof.
  induction n as [|n IH]; intros m s l1 l2 l3 O W1 W2 W3 U AL; cbn [append_prefix].
  - cbn. split; [|auto]. apply step_refl; auto; [apply resp_A; auto|apply resp_A; auto|reflexivity].
  - eapply runs_bind; [apply (runs_deref c s l3 fuel O W3)|]. intros u (D & Wu & Ru).
    assert (C3 : forall nu, is_cons (view s nu l3)).
    { intros nu. destruct (AL nu) as ([|x xs] & L & Q); [discriminate|]. do 2 eexists. exact Q. }
    assert (Lu : exists a, u = LST a).
    { destruct Ru as [(a & -> & Ea)|N].
      - exfalso. destruct (unbound_ok s l3 O W3 (ex_intro _ a (conj D Ea)) tnil) as [nu Q].
        destruct (C3 nu) as (h & t & Q2). eapply tcons_not_atom. eapply same_tree_trans; [|exact Q].
        apply same_tree_sym. exact Q2.
      - destruct u; try (destruct (N a eq_refl)); try (eexists; reflexivity);
        exfalso; (eapply (not_cons (LSSA c) (mm (hm s)) (fun _ => tnil)); [exact Wu|discriminate|discriminate|]);
        (eapply inv_cons; [apply view_derefs; exact D|apply C3]). }
    destruct Lu as [a ->].
    destruct (read_facts c s l3 a O D Wu) as (x & y & Ex & Ey & Wx & Wy & Gx & Gy & T).
    rewrite (runs_rd c s a x O Ex). cbn [bind].
    assert (P := put_step false c s l1 x fuel O W1 Wx Gx ltac:(intros _; left; destruct U as (b & Q & _); exists b; exact Q)).
    destruct (put_list false fuel c s l1 x) as [r| |]; [|destruct P|exact I]. cbn [runs bind] in *.
    destruct r as [[l1' s1]| | | |]; cbn [lbind rspec runs] in *; auto; [|destruct P; discriminate].
    destruct P as (S1 & W1' & G1 & T1 & Sh).
    destruct (cell_after c s s1 _ _ l3 a x S1 O W3 D Ex) as (y1 & Ey1 & Wy1 & Gy1 & T3).
    assert (O1 := st_ok _ _ _ _ _ S1). rewrite (runs_rd c s1 (a + 1) y1 O1 Ey1). cbn [bind].
    assert (U1 : unbound s1 l1').
    { destruct U as (b & Db & Eb). destruct Sh as [(b' & Db' & Eb' & Hr & -> & ->)|(a' & v0 & v1 & t & Da & _)].
      - exists (hH s + 1). split; [apply drf_self|]; now apply write2_new.
      - exfalso. assert (Q := derefs_det _ _ _ Db _ Da). discriminate. }
    assert (AL1 : always_list s1 (n + m) y1).
    { intros nu. destruct (st_down _ _ _ _ _ S1 nu) as [nu0 Ag]. destruct (AL nu0) as ([|h xs] & L & Q); [discriminate|].
      exists xs. split; [cbn in L; lia|]. eapply tcons_tl. eapply same_tree_trans; [apply same_tree_sym, T3|].
      eapply same_tree_trans; [apply Ag; exact W3|exact Q]. }
    eapply runs_imp; [apply (IH m s1 l1' l2 y1 O1 W1' (st_words _ _ _ _ _ S1 _ W2) Wy1 U1 AL1)|].
    intros [[[l1'' l3''] s']| | | |]; cbn; auto. intros (S2 & Q). split; auto.
    eapply step_trans; [|exact S2]. eapply step_of; [exact S1| | | |].
    + apply resp_A; auto.
    + apply resp_A; auto. apply (st_words _ _ _ _ _ S1). auto.
    + intros nu H. destruct (append_S _ _ _ _ H) as (h & t & v & Q1 & Q3 & _). exists t.
      eapply same_tree_trans; [exact Q1|]. apply same_tcons; [|apply same_tree_refl].
      apply same_tree_sym. eapply tcons_hd. eapply same_tree_trans; [apply same_tree_sym, T|exact Q3].
    + intros nu. unfold A. eapply append_cons; [apply T1|apply T3|apply same_tree_refl].
Qed.

(** L1 = [], L2 = L3 *)
Lemma end_ok s l1 l2 l3 fuel : state_ok c s -> word_ok c s l1 -> word_ok c s l2 -> word_ok c s l3 -> unbound s l1 ->
  runs (do r <- get_nil nil fuel c s l1; get s <- r; unify fuel c s l2 l3)
    (rspec (fun s' => step c s s' (A 0 l1 l2 l3) top) (no_solution s (A 0 l1 l2 l3))).
Proof.
  intros O W1 W2 W3 (a & D & E). assert (G := get_nil_step nil c s l1 fuel O W1).
  destruct (get_nil nil fuel c s l1) as [r| |]; [|destruct G|exact I]. cbn [runs bind] in *.
  destruct r as [s1| | | |]; cbn [lbind rspec runs] in *; auto; try tauto.
  - assert (K := st_words _ _ _ _ _ G).
    assert (St : step c s s1 (A 0 l1 l2 l3) (fun I => same_tree (I l2) (I l3))).
    { eapply step_of; [exact G|apply resp_A; auto| | |].
      - apply (resp2 _ _ same_tree); auto. apply inv_same.
      - intros nu H. apply append_0 in H. tauto.
      - intros nu. unfold A. rewrite append_0. assert (Q := proj1 (st_iff _ _ _ _ _ G nu) I). cbn in Q. tauto. }
    eapply runs_imp; [apply (unify_step c s1 l2 l3 fuel); auto; apply G|].
    intros [s2| | | |]; cbn; auto.
    + intros S2. eapply step_trans; eauto.
    + intros N. eapply step_none; eauto.
  - destruct G as [_ G]. destruct (G a D).
Qed.

Variables (s0 : hst) (E : nat -> goal).
Definition AInv (b : nat) (ch : chp) : Prop :=
  exists b0, b = S b0 /\ state_ok c (c_s ch) /\
    (forall j, step c s0 (c_s ch) (E (b0 + j)) (A j (c_0 ch) (c_1 ch) (c_2 ch))) /\
    word_ok c (c_s ch) (c_0 ch) /\ word_ok c (c_s ch) (c_1 ch) /\ word_ok c (c_s ch) (c_2 ch) /\
    unbound (c_s ch) (c_0 ch) /\ var_or_list (c_s ch) (c_2 ch).

Lemma var_ok s l1 l2 l3 b fuel : (forall j, step c s0 s (E (b + j)) (A j l1 l2 l3)) -> state_ok c s ->
  word_ok c s l1 -> word_ok c s l2 -> word_ok c s l3 -> unbound s l1 ->
  runs (append_var nil fuel c s l1 l2 l3) (res_ok c s0 E AInv b).
Proof.
  intros St O W1 W2 W3 U. unfold append_var.
  eapply runs_bind; [apply (runs_deref c s l3 fuel O W3)|]. intros w (D & Ww & Rw).
  assert (EO := end_ok s l1 l2 l3 fuel O W1 W2 W3 U).
  destruct (get_nil nil fuel c s l1) as [r| |]; [|destruct EO|exact I]. cbn [bind] in *.
  eapply runs_bind; [exact EO|]. intros x Hx. cbn [runs].
  assert (Nx : next s0 E AInv (S b) (match w with REF _ | LST _ => Some (Chp s l1 l2 l3) | _ => None end)).
  { assert (Nn : (forall a, w <> REF a) -> (forall a, w <> LST a) -> none_from s0 E (S b)).
    { intros N1 N2 j Hj. replace j with (b + S (j - S b))%nat by lia. eapply step_none; [apply St|].
      intros nu H. destruct (append_S _ _ _ _ H) as (h & t & v & Q1 & Q3 & _).
      eapply (not_cons (LSSA c) (mm (hm s)) nu w); eauto. eapply inv_cons; [apply view_derefs; exact D|].
      exists h, v. exact Q3. }
    destruct w; try (apply Nn; discriminate); cbn; exists b; (split; [reflexivity|]); cbn;
      (split; [exact O|]); (split; [exact St|]); repeat split; auto; exists a; auto. }
  assert (Eb : forall s' F, step c s s' (A 0 l1 l2 l3) F -> step c s0 s' (E b) F).
  { intros s' F Q. eapply step_trans; [|exact Q]. specialize (St 0%nat). rewrite Nat.add_0_r in St. exact St. }
  destruct x as [s'| | | |]; cbn [rspec] in Hx; unfold res_ok; cbn [fst snd]; auto; try tauto.
  - exists b. split; [lia|]. split; [intros j Hj; lia|]. split; auto. apply (step_goal c s0 s' (E b)). auto.
  - exists (S b). split; [lia|]. split; auto. intros j Hj. assert (j = b) by lia. subst j.
    assert (Q := St 0%nat). rewrite Nat.add_0_r in Q. eapply step_none; eauto.
Qed.

(** a chain that does not end in the variable bound *)
Lemma write2_other s a u v x : state_ok c s -> x <> a -> x < hH s \/ LSSA c <= x -> hH s + 2 <= LSSA c ->
  mm (hm (write2 c s a u v)) x = mm (hm s) x.
Proof.
  intros O N1 N2 Hr. unfold write2, alloc2, Global_Push, Bind_UV. cbn [hm mm hH].
  rewrite !store_other by lia. reflexivity.
Qed.
Lemma low_word s x v : state_ok c s -> mm (hm s) x = Some v -> x < hH s \/ LSSA c <= x.
Proof.
  intros (_ & _ & F) Ex. destruct (Z.lt_ge_cases x (hH s)); auto. destruct (Z.lt_ge_cases x (LSSA c)); auto.
  rewrite F in Ex by lia. discriminate.
Qed.
Lemma write2_derefs s a u v w z : state_ok c s -> hH s + 2 <= LSSA c -> mm (hm s) a = Some (Word (REF a)) ->
  derefs (mm (hm s)) w z ->
  derefs (mm (hm (write2 c s a u v))) w (match z with REF b => if b =? a then LST (hH s) else z | _ => z end).
Proof.
  intros O Hr Ea. induction 1 as [b Eb|b w w' Eb N D IH|w N].
  - destruct (Z.eqb_spec b a) as [->|Nb].
    + apply drf_step with (w := LST (hH s)); [|discriminate|apply drf_other; discriminate].
      destruct (low_word s a _ O Ea); unfold write2, alloc2, Global_Push, Bind_UV; cbn [hm mm hH];
        rewrite !store_other by lia; apply store_same.
    + apply drf_self. rewrite write2_other; auto. eapply low_word; eauto.
  - eapply drf_step; [|exact N|exact IH]. rewrite write2_other; auto; [|eapply low_word; eauto].
    intros ->. congruence.
  - destruct w; try (apply drf_other; discriminate). destruct (N a0 eq_refl).
Qed.

Lemma alt_append_ok fuel b ch : AInv b ch -> runs (Append_Alt_0 nil fuel c ch) (res_ok c s0 E AInv b).
Proof.
  intros (b0 & -> & O & St & W0 & W1 & W2 & U & VL). unfold Append_Alt_0.
  set (s := c_s ch) in *. set (l1 := c_0 ch) in *. set (l2 := c_1 ch) in *. set (l3 := c_2 ch) in *.
  eapply runs_bind; [apply (open_step false c s l3 fuel O W2); auto|].
  intros [[[x l3'] s1]| | | |] H; cbn [rspec] in H; try exact I; try (destruct H; discriminate); try tauto.
  destruct H as (S1 & Wx & W3' & Gx & G3 & T3 & Sh). assert (K1 := st_words _ _ _ _ _ S1).
  assert (O1 := st_ok _ _ _ _ _ S1).
  destruct U as (a0 & D0 & E0).
  assert (Sf : put_safe s1 l1 x /\ forall y s2, put_done c fuel s1 l1 x (y, s2) -> unbound s2 y).
  { assert (Left : derefs (mm (hm s1)) l1 (REF a0) -> put_safe s1 l1 x /\ forall y s2, put_done c fuel s1 l1 x (y, s2) -> unbound s2 y).
    { intros D1. split; [left; exists a0; exact D1|].
      intros y s2 (_ & _ & _ & _ & [(b' & Db' & Eb' & Hr & -> & ->)|(a' & v0 & v1 & t & Da & _)]).
      - exists (hH s1 + 1). split; [apply drf_self|]; now apply write2_new.
      - exfalso. assert (Q := derefs_det _ _ _ D1 _ Da). discriminate. }
    destruct Sh as [(a & Da & Es)|(a & Da & Ea & Hr & Es & Ex & Ey)].
    - apply Left. rewrite Es. exact D0.
    - assert (D1 := write2_derefs s a (REF (hH s)) (REF (hH s + 1)) l1 (REF a0) O Hr Ea D0).
      rewrite <- Es in D1. destruct (Z.eqb_spec a0 a) as [->|N]; [|apply Left; exact D1].
      assert (Eh : mm (hm s1) (hH s) = Some (Word (REF (hH s)))).
      { rewrite Es. unfold write2, alloc2, Global_Push. cbn [hm mm hH]. rewrite store_other by lia. apply store_same. }
      assert (Eh1 : mm (hm s1) (hH s + 1) = Some (Word (REF (hH s + 1)))) by (rewrite Es; now apply write2_new).
      split.
      + right. exists (hH s), (REF (hH s)), (hH s). split; [exact D1|]. split; [exact Eh|].
        rewrite Ex. split; now apply drf_self.
      + intros y s2 (_ & _ & _ & _ & [(b' & Db' & _)|(a' & v0 & v1 & t & Da' & Ev0 & EU & -> & Ev1 & ->)]).
        * exfalso. assert (Q := derefs_det _ _ _ D1 _ Db'). discriminate.
        * assert (Q := derefs_det _ _ _ D1 _ Da'). injection Q as <-.
          assert (v0 = REF (hH s)) by congruence. subst v0. rewrite Ex in EU.
          destruct (Unify_same_var c (hm s1) _ _ (hH s) fuel _ _ (drf_self _ _ Eh) (drf_self _ _ Eh) EU) as [_ ->].
          assert (v1 = REF (hH s + 1)) by congruence. subst v1.
          exists (hH s + 1). cbn. split; [now apply drf_self|exact Eh1]. }
  destruct Sf as [Sf Un].
  eapply runs_bind; [apply (put_step false c s1 l1 x fuel O1 (K1 _ W0) Wx Gx); auto|].
  intros [[l1' s2]| | | |] H; cbn [rspec] in H; try exact I; try (destruct H; discriminate); try tauto.
  assert (U2 := Un _ _ H). destruct H as (S2 & W1' & G1 & T1 & _). assert (K2 := st_words _ _ _ _ _ S2).
  set (B := fun j : nat => fun I : word -> tree => exists t, same_tree (I l1) (tcons (I x) t) /\ is_append j t (I l2) (I l3')).
  assert (RB : forall j, resp c s1 (B j)).
  { intros j I J Ag (t & H1 & H2). exists t. split.
    - eapply same_tree_trans; [apply same_tree_sym, Ag; auto|]. eapply same_tree_trans; [exact H1|].
      apply same_tcons; [apply Ag; auto|apply same_tree_refl].
    - eapply inv_append; [apply same_tree_refl| | |exact H2]; apply Ag; auto. }
  apply var_ok; auto; [|apply S2].
  intros j. replace (S b0 + j)%nat with (b0 + S j)%nat by lia.
  eapply step_trans; [apply St|]. apply step_trans with (s1 := s1) (E1 := B j).
  - eapply step_of; [exact S1|apply resp_A; auto|apply RB| |].
    + intros nu H. destruct (append_S _ _ _ _ H) as (h & t & v & Q1 & Q3 & _). exists h, v. exact Q3.
    + intros nu. unfold A, B. split.
      * intros (t & H1 & H2). exact (proj1 (append_cons j _ _ _ _ _ _ _ H1 (T3 nu) (same_tree_refl _)) H2).
      * intros H. destruct (append_S _ _ _ _ H) as (h & t & v & Q1 & Q3 & Q).
        destruct (tcons_inv _ _ _ _ (same_tree_trans _ _ _ (same_tree_sym _ _ (T3 nu)) Q3)) as [K3 K4].
        exists t. split.
        -- eapply same_tree_trans; [exact Q1|]. apply same_tcons; [apply same_tree_sym; exact K3|apply same_tree_refl].
        -- eapply inv_append; [apply same_tree_refl|apply same_tree_refl|apply same_tree_sym; exact K4|exact Q].
  - eapply step_of; [exact S2|apply RB|apply resp_A; auto| |].
    + intros nu (t & H1 & _). exists t. exact H1.
    + intros nu. unfold A, B. split.
      * intros H. exists (view s2 nu l1'). split; [apply T1|exact H].
      * intros (t & H1 & H2). eapply inv_append; [|apply same_tree_refl|apply same_tree_refl|exact H2].
        exact (tcons_tl _ _ _ _ (same_tree_trans _ _ _ (same_tree_sym _ _ H1) (T1 nu))).
Qed.
End Append.

(** ** append/3 *)
Lemma append_ok nil c s l1 l2 l3 k fuel : state_ok c s -> word_ok c s l1 -> word_ok c s l2 -> word_ok c s l3 ->
  Z.of_nat k < 2147483647 ->
  runs (Append_3 nil k fuel c s l1 l2 l3)
    (res_ok c s (fun j => A nil j l1 l2 l3) (AInv nil c s (fun j => A nil j l1 l2 l3)) 0).
Proof.
  intros O W1 W2 W3 Hk. unfold Append_3. set (E := fun j => A nil j l1 l2 l3).
  eapply runs_bind; [apply (walk_ok nil c k fuel s l1 l2 l3); auto|].
  intros [[[[w l1'] l3'] s1]| | | |] H; cbn [rspec] in H; try exact I; try tauto.
  2: { cbn. exists 0%nat. split; [lia|]. split; [intros j Hj; lia|]. intros j _. apply H. }
  destruct H as (n & N & St & W1' & W2' & W3' & D & NL). assert (O1 := st_ok _ _ _ _ _ (St 0%nat)).
  assert (Ww := derefs_wf _ _ _ _ (proj1 O1) D W1').
  assert (None_all : (forall j, no_solution s1 (A nil j l1' l2 l3')) -> res_ok c s E (AInv nil c s E) 0 (No, None)).
  { intros Q. exists 0%nat. split; [lia|]. split; [intros j Hj; lia|]. intros j _.
    destruct (Compare_dec.le_lt_dec n j) as [L|L]; [|apply N; auto].
    replace j with (n + (j - n))%nat by lia. eapply step_none; [apply St|]. apply Q. }
  assert (One : forall d x, (forall j, j <> d -> no_solution s1 (A nil j l1' l2 l3')) ->
     rspec (fun s' => step c s1 s' (A nil d l1' l2 l3') top) (no_solution s1 (A nil d l1' l2 l3')) x ->
     res_ok c s E (AInv nil c s E) 0 (x, None)).
  { intros d x Nd Hx.
    assert (Nj : forall j, j <> (n + d)%nat -> no_solution s (E j)).
    { intros j Hj. destruct (Compare_dec.le_lt_dec n j) as [L|L]; [|apply N; auto].
      replace j with (n + (j - n))%nat by lia. eapply step_none; [apply St|]. apply Nd. lia. }
    destruct x as [s'| | | |]; cbn [rspec] in Hx; try exact I; try tauto.
    - exists (n + d)%nat. split; [lia|]. split; [intros j Hj; apply Nj; lia|]. split.
      + apply (step_goal c s s' (E (n + d)%nat)). eapply step_trans; [apply St|exact Hx].
      + intros j Hj. apply Nj. lia.
    - exists 0%nat. split; [lia|]. split; [intros j Hj; lia|]. intros j _.
      destruct (PeanoNat.Nat.eq_dec j (n + d)) as [->|Q]; [|auto]. eapply step_none; [apply St|exact Hx]. }
  destruct w as [a|a|a|i|a|a|i].
  - (* L1 is a variable *)
    assert (U : unbound s1 l1').
    { exists a. split; auto. destruct (derefs_result _ _ _ D) as [(a' & Q & Ea)|Q]; [injection Q as <-; auto|destruct (Q a eq_refl)]. }
    assert (AV : runs (append_var nil fuel c s1 l1' l2 l3') (res_ok c s E (AInv nil c s E) 0)).
    { eapply runs_imp; [apply (var_ok nil c s E s1 l1' l2 l3' n fuel); auto|].
      assert (Nn : forall b', (n <= b')%nat -> none_in s E n b' -> none_in s E 0 b').
      { intros b' L Q j Hj. destruct (Compare_dec.le_lt_dec n j) as [L'|L']; [apply Q; lia|apply N; auto]. }
      intros [[s'| | | |] o]; unfold res_ok; cbn [fst snd]; auto.
      - intros (k' & L & Q1 & Q2 & Q3). exists k'. split; [lia|]. split; [apply Nn; auto|]. auto.
      - intros (k' & L & Q1 & Q2). exists k'. split; [lia|]. split; [apply Nn; auto|]. auto.
      - intros Q j _. destruct (Compare_dec.le_lt_dec n j) as [L'|L']; [apply Q; lia|apply N; auto]. }
    eapply runs_bind; [apply (length_spec nil c s1 fuel O1 k 0 l2 W2'); lia|]. intros len2 (B2 & L2).
    destruct (Z.leb_spec 0 len2) as [P2|P2].
    + eapply runs_bind; [apply (length_spec nil c s1 fuel O1 k 0 l3' W3'); lia|]. intros len3 (B3 & L3).
      destruct (Z.leb_spec 0 len3) as [P3|P3]; [|exact AV].
      destruct (L2 P2) as [_ A2]. destruct (L3 P3) as [_ A3]. rewrite Z.sub_0_r in *.
      assert (Len : forall j nu, A nil j l1' l2 l3' (view s1 nu) -> Z.to_nat len3 = (j + Z.to_nat len2)%nat).
      { intros j nu H. destruct (A2 nu) as (xs & <- & Q2). destruct (A3 nu) as (ys & <- & Q3).
        eapply append_len; eauto. }
      destruct (Z.ltb_spec (len3 - len2) 0).
      * apply None_all. intros j nu Hj. apply Len in Hj. lia.
      * unfold det. set (d := Z.to_nat (len3 - len2)).
        assert (Nd : forall j, j <> d -> no_solution s1 (A nil j l1' l2 l3')).
        { intros j Hj nu Q. apply Len in Q. unfold d in Hj. lia. }
        assert (AL : always_list nil s1 (d + Z.to_nat len2) l3').
        { intros nu. destruct (A3 nu) as (ys & Q & Q3). exists ys. split; auto. rewrite Q. unfold d. lia. }
        assert (P := prefix_ok nil c fuel d (Z.to_nat len2) s1 l1' l2 l3' O1 W1' W2' W3' U AL).
        destruct (append_prefix d fuel c s1 l1' l3') as [r| |]; [|destruct P|exact I]. cbn [runs bind] in *.
        destruct r as [[[l1'' l3''] s2]| | | |]; cbn [lbind rspec runs bind] in *; try exact I; try tauto.
        destruct P as (S2 & W1'' & W2'' & W3'' & U2).
        assert (EO := end_ok nil c s2 l1'' l2 l3'' fuel (st_ok _ _ _ _ _ S2) W1'' W2'' W3'' U2).
        eapply runs_bind; [exact EO|]. intros x Hx. cbn [runs]. apply (One d); auto.
        destruct x; cbn [rspec] in *; auto.
        -- eapply step_trans; eauto.
        -- eapply step_none; eauto.
    + cbn [bind]. exact AV.
  - destruct (NL a eq_refl).
  - apply None_all. intros [|j] nu H.
    + apply append_0 in H as [H _]. eapply (not_atom (mm (hm s1)) nu (STC a) nil); [discriminate|discriminate|].
      eapply same_tree_trans; [apply same_tree_sym, view_derefs; exact D|exact H].
    + destruct (append_S _ _ _ _ _ H) as (h & t & v & Q1 & _).
      eapply (not_cons (LSSA c) (mm (hm s1)) nu (STC a)); [exact Ww|discriminate|discriminate|].
      eapply inv_cons; [apply view_derefs; exact D|]. exists h, t. exact Q1.
  - destruct (Z.eqb_spec i nil) as [->|Ni].
    + assert (Tn : forall nu, same_tree (view s1 nu l1') (tatom nil)).
      { intros nu. eapply same_tree_trans; [apply view_derefs; exact D|]. apply lab_atom. }
      unfold det. eapply runs_bind; [apply (unify_step c s1 l2 l3' fuel); auto|]. intros x Hx. cbn [runs].
      apply (One 0%nat).
      * intros [|j] Hj; [lia|]. intros nu H. destruct (append_S _ _ _ _ _ H) as (h & t & v & Q1 & _).
        eapply tcons_not_atom. eapply same_tree_trans; [apply same_tree_sym; exact Q1|apply Tn].
      * destruct x as [s'| | | |]; cbn [rspec] in *; auto.
        -- eapply step_trans; [|exact Hx]. apply step_refl; auto; [apply resp_A; auto|apply (resp2 _ _ same_tree); auto; apply inv_same|].
           intros nu. unfold A. rewrite append_0. specialize (Tn nu). tauto.
        -- intros nu H. apply append_0 in H as [_ H]. exact (Hx nu H).
    + apply None_all. intros [|j] nu H.
      * apply append_0 in H as [H _]. eapply (not_atom (mm (hm s1)) nu (ATM i) nil); [discriminate|congruence|].
        eapply same_tree_trans; [apply same_tree_sym, view_derefs; exact D|exact H].
      * destruct (append_S _ _ _ _ _ H) as (h & t & v & Q1 & _).
        eapply (not_cons (LSSA c) (mm (hm s1)) nu (ATM i)); [exact Ww|discriminate|discriminate|].
        eapply inv_cons; [apply view_derefs; exact D|]. exists h, t. exact Q1.
  - apply None_all. intros [|j] nu H.
    + apply append_0 in H as [H _]. eapply (not_atom (mm (hm s1)) nu (FLT a) nil); [discriminate|discriminate|].
      eapply same_tree_trans; [apply same_tree_sym, view_derefs; exact D|exact H].
    + destruct (append_S _ _ _ _ _ H) as (h & t & v & Q1 & _).
      eapply (not_cons (LSSA c) (mm (hm s1)) nu (FLT a)); [exact Ww|discriminate|discriminate|].
      eapply inv_cons; [apply view_derefs; exact D|]. exists h, t. exact Q1.
  - apply None_all. intros [|j] nu H.
    + apply append_0 in H as [H _]. eapply (not_atom (mm (hm s1)) nu (FDV a) nil); [discriminate|discriminate|].
      eapply same_tree_trans; [apply same_tree_sym, view_derefs; exact D|exact H].
    + destruct (append_S _ _ _ _ _ H) as (h & t & v & Q1 & _).
      eapply (not_cons (LSSA c) (mm (hm s1)) nu (FDV a)); [exact Ww|discriminate|discriminate|].
      eapply inv_cons; [apply view_derefs; exact D|]. exists h, t. exact Q1.
  - apply None_all. intros [|j] nu H.
    + apply append_0 in H as [H _]. eapply (not_atom (mm (hm s1)) nu (INT i) nil); [discriminate|discriminate|].
      eapply same_tree_trans; [apply same_tree_sym, view_derefs; exact D|exact H].
    + destruct (append_S _ _ _ _ _ H) as (h & t & v & Q1 & _).
      eapply (not_cons (LSSA c) (mm (hm s1)) nu (INT i)); [exact Ww|discriminate|discriminate|].
      eapply inv_cons; [apply view_derefs; exact D|]. exists h, t. exact Q1.
Qed.
