Require Import ZArith List Bool Lia PeanoNat Floats.SpecFloat.
Require Import Verif.Term_Model Verif.Term_Proofs Verif.Heap_Model Verif.Heap_Proofs.
Require Import Verif.Unify_Model Verif.Unify_Spec Verif.Unify_Proofs Verif.Unify_Proofs2.
Require Import Verif.Binding_Model Verif.Binding_Spec Verif.Binding_Proofs Verif.Copy_Model.
Require Import Verif.List_Model Verif.List_Spec Verif.List_Proofs Verif.List_Steps.
Require Import Verif.Univ_Model Verif.Univ_Spec Verif.Univ_Proofs.
Import ListNotations.
Open Scope Z_scope.
Local Notation word_ok c s w := (wf_word (LSSA c) (mm (hm s)) w).
Local Notation mem_of s := (mm (hm s)).

(** ** The relations only depend on the trees *)
Ltac tr := eapply same_tree_trans; [apply same_tree_sym; eassumption|assumption].
Lemma inv_arg : inv3 is_arg.
Proof. intros a a' b b' d d' A B D (i & f & ts & y & H1 & H2 & H3 & H4). exists i, f, ts, y.
  split; [tr|]. split; [tr|]. split; auto. tr. Qed.
Lemma inv_functor : inv3 is_functor.
Proof.
  intros a a' b b' d d' A B D [(g & ts & N & H1 & H2 & H3)|(l & N & H1 & H2 & H3)]; [left; exists g, ts|right; exists l];
    (split; [auto|]; split; [tr|]; split; [tr|tr]).
Qed.
Lemma inv_univ nil : inv2 (is_univ nil).
Proof.
  intros a a' b b' A B [(g & ts & N & H1 & H2)|(l & N & H1 & H2)]; [left; exists g, ts|right; exists l];
    (split; [auto|]; split; [tr|tr]).
Qed.

(** ** The checks *)
Lemma runs_plainly o Q : runs o (fun r => Q (Val r)) -> runs (plainly o) Q.
Proof. unfold plainly. destruct o; cbn; auto. Qed.

Lemma rd_positive c s w fuel : state_ok c s -> word_ok c s w ->
  runs (Rd_Positive_Check fuel (mem_of s) w) (fun r =>
    match r with
    | Val n => 0 <= n /\ derefs (mem_of s) w (INT n)
    | Raise e => e = EInst \/
       ((e = EInteger \/ e = ENegative) /\ forall nu n, 0 <= n -> ~ same_tree (view s nu w) (tint n))
    end).
Proof.
  intros O Ww. unfold Rd_Positive_Check. eapply runs_bind; [apply (runs_deref c s w fuel O Ww)|].
  intros u (D & Wu & Ru).
  assert (K : forall nu n, (forall a, u <> REF a) -> u <> INT n -> ~ same_tree (view s nu w) (tint n)).
  { intros nu n N1 N2 Q. apply (not_int (mem_of s) nu u n N1 N2).
    eapply same_tree_trans; [apply same_tree_sym, view_derefs; exact D|exact Q]. }
  destruct u as [a|a|a|i|a|a|i]; cbn [runs]; try (right; split; [auto|]; intros nu n _; apply K; discriminate).
  - left. reflexivity.
  - destruct (Z.ltb_spec i 0); cbn [runs].
    + right. split; auto. intros nu n Hn. apply K; [discriminate|]. intros Q. injection Q as ->. lia.
    + auto.
Qed.

Lemma rd_func_ok c s a : word_ok c s (STC a) -> exists f n, rd_func (mem_of s) a = Ret (f, n) /\
  mem_of s a = Some (Func f n) /\ (1 <= n)%nat /\ words_at (mem_of s) (a + 1) n /\
  ~ (f = ATOM_DOT /\ n = 2%nat) /\ a + Z.of_nat n < LSSA c.
Proof.
  intros (f & n & E & N & F & Q & Ws). exists f, n. unfold rd_func. rewrite E. repeat split; auto.
Qed.

(** a compound word: name, arguments *)
Definition compound_at (s : hst) (w : word) (f : Z) (n : nat) (a : addr) : Prop :=
  words_at (mem_of s) a n /\ (1 <= n)%nat /\
  forall nu, same_tree (view s nu w) (tnode f (map (view s nu) (refs a n))).

Lemma compound_lst c s w a : derefs (mem_of s) w (LST a) -> word_ok c s (LST a) ->
  compound_at s w ATOM_DOT 2 a.
Proof.
  intros D [_ Ws]. split; auto. split; [lia|]. intros nu.
  eapply same_tree_trans; [apply view_derefs; exact D|]. now apply lab_lst_node.
Qed.
Lemma compound_stc c s w a f n : derefs (mem_of s) w (STC a) -> mem_of s a = Some (Func f n) ->
  word_ok c s (STC a) -> compound_at s w f n (a + 1).
Proof.
  intros D E (f' & n' & E' & N & _ & _ & Ws). rewrite E in E'. injection E' as <- <-. split; auto. split; auto. intros nu.
  eapply same_tree_trans; [apply view_derefs; exact D|]. now apply lab_stc_node.
Qed.

Lemma not_node_leaf t l f ts : same_tree t (tleaf l) -> atomic l -> ~ same_tree t (tnode f ts).
Proof.
  intros A Q B. apply node_root in B. apply A in B as [_ E]. subst l. exact Q.
Qed.

Lemma rd_compound_ok c s w fuel : state_ok c s -> word_ok c s w ->
  runs (Rd_Compound_Check fuel (mem_of s) w) (fun r =>
    match r with
    | Val (n, a) => (exists f, compound_at s w f n a) /\ a + Z.of_nat n <= LSSA c
    | Raise e => e = EInst \/ (e = ECompound /\ forall nu f ts, ~ same_tree (view s nu w) (tnode f ts))
    end).
Proof.
  intros O Ww. unfold Rd_Compound_Check. eapply runs_bind; [apply (runs_deref c s w fuel O Ww)|].
  intros u (D & Wu & Ru).
  assert (K : match u with INT _ | ATM _ | FDV _ | FLT _ => True | _ => False end ->
      forall nu f ts, ~ same_tree (view s nu w) (tnode f ts)).
  { intros Q nu f ts A. destruct (leaf_lab _ _ u Wu Q) as (l & Al & Hl).
    apply (not_node_leaf (view s nu w) l f ts); auto.
    eapply same_tree_trans; [apply view_derefs; exact D|apply Hl]. }
  destruct u as [a|a|a|i|a|a|i]; try (cbn [runs]; right; split; [auto|]; apply K; exact I).
  - cbn. auto.
  - cbn [runs]. split; [exists ATOM_DOT; eapply compound_lst; eauto|]. destruct Wu as [Q _]. lia.
  - destruct (rd_func_ok c s a Wu) as (f & n & R & E & N & Ws & ND & Q). rewrite R. cbn [bind runs fst snd].
    split; [exists f; eapply compound_stc; eauto|lia].
Qed.

(** ** arg/3 *)
Lemma word_ref c s a n i : words_at (mem_of s) a n -> (i < n)%nat -> word_ok c s (REF (a + Z.of_nat i)).
Proof. intros Ws Hi. destruct (Ws i Hi) as [w E]. exists w. exact E. Qed.

Lemma Arg_ok bits c s no t x fuel : state_ok c s -> word_ok c s no -> word_ok c s t -> word_ok c s x ->
  (forall n, derefs (mem_of s) no (INT n) -> n - 1 < 2 ^ bits) -> LSSA c < 2 ^ bits -> 0 < bits ->
  runs (Arg_3 bits fuel c s no t x) (right_answer c s (fun I => is_arg (I no) (I t) (I x))).
Proof.
  intros O Wn Wt Wx Hn HL Hb. unfold Arg_3.
  eapply runs_bind; [apply (rd_positive c s no fuel O Wn)|]. intros [n|e]; cbn [cbind].
  2: { intros [->|[Q N]]; [exact I|]. assert (K : no_solution s (fun I0 => is_arg (I0 no) (I0 t) (I0 x))).
       { intros nu (i & f & ts & y & H1 & _). apply (N nu (Z.of_nat i + 1)); auto. lia. }
       destruct Q as [->| ->]; exact K. }
  intros [Hp Dn]. eapply runs_bind; [apply (rd_compound_ok c s t fuel O Wt)|]. intros [[k a]|e]; cbn [cbind].
  2: { intros [->|[-> N]]; [exact I|]. intros nu (i & f & ts & y & _ & H2 & _). exact (N nu f ts H2). }
  intros [[f (Ws & Hk & Ht)] Hak]. cbn [fst snd].
  assert (Pos : 0 < 2 ^ bits) by (apply Z.pow_pos_nonneg; lia).
  assert (Tn : forall nu, same_tree (view s nu no) (tint n)).
  { intros nu. eapply same_tree_trans; [apply view_derefs; exact Dn|]. apply lab_int_tree. }
  assert (Ka : 0 <= a).
  { destruct (Ws 0%nat ltac:(lia)) as [w0 E0]. apply (wf_pos _ _ (proj1 O)) in E0. lia. }
  assert (Hk' : Z.of_nat k mod 2 ^ bits = Z.of_nat k) by (apply Z.mod_small; lia). rewrite Hk'.
  assert (Inv : forall nu i g ts y, same_tree (view s nu no) (tint (Z.of_nat i + 1)) -> same_tree (view s nu t) (tnode g ts) ->
     nth_error ts i = Some y -> n = Z.of_nat i + 1 /\ (i < k)%nat /\ same_tree y (view s nu (REF (a + Z.of_nat i)))).
  { intros nu i g ts y H1 H2 H3. split; [|].
    - apply tint_inj. eapply same_tree_trans; [apply same_tree_sym, Tn|exact H1].
    - assert (A : same_tree (tnode g ts) (tnode f (map (view s nu) (refs a k)))) by (eapply same_tree_trans; [apply same_tree_sym; exact H2|apply Ht]).
      apply node_inv in A as [_ F]. assert (Li : (i < length ts)%nat) by (apply nth_error_Some; congruence).
      rewrite (Forall2_len _ _ _ F), map_length, refs_length in Li. split; auto.
      clear - F H3 Li. assert (Q : nth_error (map (view s nu) (refs a k)) i = Some (view s nu (REF (a + Z.of_nat i))))
        by (rewrite nth_error_map, refs_nth by auto; reflexivity).
      revert Q H3. generalize (view s nu (REF (a + Z.of_nat i))). clear Li.
      revert i. induction F as [|x' y' l1 l2 A F IH]; intros [|i] z Q H3; try discriminate.
      + cbn in Q, H3. injection Q as <-. injection H3 as <-. exact A.
      + cbn in Q, H3. eauto. }
  destruct (Z.ltb_spec ((n - 1) mod 2 ^ bits) (Z.of_nat k)) as [Lt|Ge].
  - assert (B : 0 <= n - 1).
    { destruct (Z.eq_dec n 0) as [->|]; [|lia]. exfalso.
      change (0 - 1) with (-1) in Lt. assert (Q : (-1) mod 2 ^ bits = 2 ^ bits - 1).
      { symmetry. apply Z.mod_unique with (q := -1); lia. }
      lia. }
    assert (E : (n - 1) mod 2 ^ bits = n - 1) by (apply Z.mod_small; split; auto).
    rewrite E in Lt. set (i := Z.to_nat (n - 1)). assert (Hi : n - 1 = Z.of_nat i) by (unfold i; lia).
    assert (Li : (i < k)%nat) by lia. rewrite Hi. destruct (Ws i Li) as [w Ew]. unfold rd_word. rewrite Ew. cbn [bind].
    apply runs_plainly. assert (Ww : word_ok c s w) by (eapply wf_cell; [apply O|exact Ew]).
    assert (Eq : forall nu, is_arg (view s nu no) (view s nu t) (view s nu x) <-> same_tree (view s nu x) (view s nu w)).
    { intros nu. assert (Rw : same_tree (view s nu (REF (a + Z.of_nat i))) (view s nu w)) by (apply lab_cell; exact Ew). split.
      - intros (i' & g & ts & y & H1 & H2 & H3 & H4). destruct (Inv nu i' g ts y H1 H2 H3) as (Q & L' & A).
        assert (i' = i) by lia. subst i'. eapply same_tree_trans; [exact H4|]. eapply same_tree_trans; [exact A|exact Rw].
      - intros A. exists i, f, (map (view s nu) (refs a k)), (view s nu (REF (a + Z.of_nat i))).
        split; [rewrite <- Hi; replace (n - 1 + 1) with n by lia; apply Tn|]. split; [apply Ht|].
        split; [rewrite nth_error_map, refs_nth by auto; reflexivity|].
        eapply same_tree_trans; [exact A|apply same_tree_sym; exact Rw]. }
    eapply runs_imp; [apply (unify_step c s x w fuel O Wx Ww)|]. intros [s'| | | |]; cbn [rspec right_answer answer_of]; auto.
    + intros S1. apply step_answer. eapply step_equiv; [exact S1| |exact Eq].
      apply (resp3 _ _ is_arg); auto. apply inv_arg.
    + intros N nu H1. apply (N nu), Eq, H1.
    + intros [].
  - cbn [runs right_answer answer_of]. intros nu (i & g & ts & y & H1 & H2 & H3 & _).
    destruct (Inv nu i g ts y H1 H2 H3) as (-> & Li & _). replace (Z.of_nat i + 1 - 1) with (Z.of_nat i) in Ge by lia.
    rewrite Z.mod_small in Ge; lia.
Qed.
