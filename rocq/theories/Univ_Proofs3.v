Require Import ZArith List Bool Lia PeanoNat Floats.SpecFloat.
Require Import Verif.Term_Model Verif.Term_Proofs Verif.Heap_Model Verif.Heap_Proofs.
Require Import Verif.Unify_Model Verif.Unify_Spec Verif.Unify_Proofs Verif.Unify_Proofs2.
Require Import Verif.Binding_Model Verif.Binding_Spec Verif.Binding_Proofs Verif.Copy_Model.
Require Import Verif.List_Model Verif.List_Spec Verif.List_Proofs Verif.List_Steps.
Require Import Verif.Univ_Model Verif.Univ_Spec Verif.Univ_Proofs Verif.Univ_Proofs2.
Import ListNotations.
Open Scope Z_scope.
Local Notation word_ok c s w := (wf_word (LSSA c) (mm (hm s)) w).
Local Notation mem_of s := (mm (hm s)).

(** ** Names and arities of given terms *)
Lemma get_atom_step c s i w fuel : state_ok c s -> word_ok c s w ->
  runs (Get_Atom fuel c s i w)
    (rspec (fun s' => step c s s' (fun I => same_tree (I w) (tatom i)) top)
       (no_solution s (fun I => same_tree (I w) (tatom i)))).
Proof.
  intros O Ww. unfold Get_Atom.
  eapply runs_bind; [apply (runs_deref c s w fuel O Ww)|]. intros u (D & Wu & Ru).
  assert (Rw : resp c s (fun I => same_tree (I w) (tatom i))) by (apply (resp1 _ _ (fun t => same_tree t (tatom i))); auto; apply inv_atom).
  destruct Ru as [(a & -> & Ea)|Nu].
  - cbn [runs rspec]. assert (S1 := bind_step c s a (ATM i) O Ea I I).
    eapply step_equiv; [exact S1|exact Rw|]. intros nu. cbn beta. split; intros Q.
    + eapply same_tree_trans; [apply same_tree_sym, view_derefs; exact D|].
      eapply same_tree_trans; [exact Q|]. apply same_tree_sym, lab_atom.
    + eapply same_tree_trans; [apply view_derefs; exact D|]. eapply same_tree_trans; [exact Q|]. apply lab_atom.
  - assert (G : runs (if word_eqb u (ATM i) then Ret (Ok s) else Ret (@No hst))
       (rspec (fun s' => step c s s' (fun I => same_tree (I w) (tatom i)) top)
       (no_solution s (fun I => same_tree (I w) (tatom i))))).
    { destruct (word_eqb u (ATM i)) eqn:Q.
      + apply word_eqb_eq in Q as ->. cbn. apply step_refl; auto; [apply resp_top|].
        intros nu. split; [|intros _; exact I]. intros _.
        eapply same_tree_trans; [apply view_derefs; exact D|]. apply lab_atom.
      + cbn. intros nu Sm. apply word_eqb_neq in Q.
        apply (not_atom (mm (hm s)) nu u i Nu Q).
        eapply same_tree_trans; [apply same_tree_sym, view_derefs; exact D|exact Sm]. }
    destruct u; auto. destruct (Nu a eq_refl).
Qed.

(** a result with errors: [Q] on success, [N] on failure and on type errors *)
Definition cspec (Q : hst -> Prop) (N : Prop) (r : chk (lres hst)) : Prop :=
  match r with Val r => rspec Q N r | Raise e => (e = EAtom \/ e = EInteger) /\ N end.

Lemma un_atom_step c s i w fuel : state_ok c s -> word_ok c s w ->
  runs (Un_Atom_Check fuel c s i w)
    (cspec (fun s' => step c s s' (fun I => same_tree (I w) (tatom i)) top)
       (no_solution s (fun I => same_tree (I w) (tatom i)))).
Proof.
  intros O Ww. unfold Un_Atom_Check.
  eapply runs_bind; [apply (runs_deref c s w fuel O Ww)|]. intros u (D & Wu & Ru).
  assert (Rw : resp c s (fun I => same_tree (I w) (tatom i))) by (apply (resp1 _ _ (fun t => same_tree t (tatom i))); auto; apply inv_atom).
  assert (K : forall nu, same_tree (view s nu w) (tatom i) <-> same_tree (view s nu u) (tatom i)).
  { intros nu. split; intros Q; (eapply same_tree_trans; [|exact Q]); [apply same_tree_sym|]; now apply view_derefs. }
  assert (G : runs (plainly (Get_Atom fuel c s i u))
    (cspec (fun s' => step c s s' (fun I => same_tree (I w) (tatom i)) top)
       (no_solution s (fun I => same_tree (I w) (tatom i))))).
  { apply runs_plainly. eapply runs_imp; [apply (get_atom_step c s i u fuel O Wu)|].
    intros [s'| | | |]; cbn; auto.
    - intros S1. eapply step_equiv; [exact S1|exact Rw|exact K].
    - intros N nu Q. apply (N nu), K, Q. }
  assert (B : (forall a, u <> REF a) -> u <> ATM i -> no_solution s (fun I => same_tree (I w) (tatom i))).
  { intros N1 N2 nu Q. apply K in Q. exact (not_atom (mem_of s) nu u i N1 N2 Q). }
  destruct u; try exact G; cbn; (split; [auto|apply B; discriminate]).
Qed.
Lemma un_integer_step c s i w fuel : state_ok c s -> word_ok c s w ->
  runs (Un_Integer_Check fuel c s i w)
    (cspec (fun s' => step c s s' (fun I => same_tree (I w) (tint i)) top)
       (no_solution s (fun I => same_tree (I w) (tint i)))).
Proof.
  intros O Ww. unfold Un_Integer_Check.
  eapply runs_bind; [apply (runs_deref c s w fuel O Ww)|]. intros u (D & Wu & Ru).
  assert (Rw : resp c s (fun I => same_tree (I w) (tint i))) by (apply (resp1 _ _ (fun t => same_tree t (tint i))); auto; apply inv_int).
  assert (K : forall nu, same_tree (view s nu w) (tint i) <-> same_tree (view s nu u) (tint i)).
  { intros nu. split; intros Q; (eapply same_tree_trans; [|exact Q]); [apply same_tree_sym|]; now apply view_derefs. }
  assert (G : runs (plainly (Get_Integer fuel c s i u))
    (cspec (fun s' => step c s s' (fun I => same_tree (I w) (tint i)) top)
       (no_solution s (fun I => same_tree (I w) (tint i))))).
  { apply runs_plainly. eapply runs_imp; [apply (get_integer_step c s i u fuel O Wu)|].
    intros [s'| | | |]; cbn; auto.
    - intros S1. eapply step_equiv; [exact S1|exact Rw|exact K].
    - intros N nu Q. apply (N nu), K, Q. }
  assert (B : (forall a, u <> REF a) -> u <> INT i -> no_solution s (fun I => same_tree (I w) (tint i))).
  { intros N1 N2 nu Q. apply K in Q. exact (not_int (mem_of s) nu u i N1 N2 Q). }
  destruct u; try exact G; cbn; (split; [auto|apply B; discriminate]).
Qed.

(** two conditions one after the other *)
Lemma andthen_step c s (C1 C2 : goal) o k : resp c s C2 ->
  runs o (cspec (fun s' => step c s s' C1 top) (no_solution s C1)) ->
  (forall s1, step c s s1 C1 top -> runs (k s1) (cspec (fun s' => step c s1 s' C2 top) (no_solution s1 C2))) ->
  runs (andthen o k) (cspec (fun s' => step c s s' (fun I => C1 I /\ C2 I) top) (no_solution s (fun I => C1 I /\ C2 I))).
Proof.
  intros R2 H1 H2. unfold andthen. eapply runs_bind; [exact H1|].
  assert (N1 : no_solution s C1 -> no_solution s (fun I => C1 I /\ C2 I)).
  { intros N nu [Q _]. exact (N nu Q). }
  intros [r|e]; cbn [cbind].
  - destruct r as [s1| | | |]; cbn [cspec rspec]; auto.
    intros S1. eapply runs_imp; [exact (H2 s1 S1)|].
    assert (N2 : no_solution s1 C2 -> no_solution s (fun I => C1 I /\ C2 I)).
    { intros N. eapply step_and_none; eauto. }
    intros [[s2| | | |]|e]; cbn [cspec rspec]; auto.
    + intros S2. eapply step_and; eauto.
    + intros [E N]. auto.
  - cbn [cspec runs]. intros [E N]. auto.
Qed.

Lemma cspec_answer c s E C r : resp c s E -> (forall nu, E (view s nu) <-> C (view s nu)) ->
  cspec (fun s' => step c s s' C top) (no_solution s C) r -> right_answer c s E r.
Proof.
  intros Rs K.
  assert (N0 : no_solution s C -> no_solution s E).
  { intros N nu Q. apply (N nu), K, Q. }
  destruct r as [[s'| | | |]|e]; cbn [cspec rspec right_answer answer_of]; auto.
  - intros S1. apply step_answer. eapply step_equiv; eauto.
  - intros [].
  - intros [[->| ->] N]; auto.
Qed.

(** is_functor when the tree of the term is known *)
Lemma functor_node t g ts f a : ts <> [] -> same_tree t (tnode g ts) ->
  (is_functor t f a <-> (same_tree f (tatom g) /\ same_tree a (tint (Z.of_nat (length ts))))).
Proof.
  intros N A. split.
  - intros [(g' & us & N' & H1 & H2 & H3)|(l & N' & H1 & _)].
    + assert (B : same_tree (tnode g' us) (tnode g ts)) by (eapply same_tree_trans; [apply same_tree_sym; exact H1|exact A]).
      apply node_inv in B as [-> F]. rewrite (Forall2_len _ _ _ F) in H3. auto.
    + exfalso. exact (not_node_leaf _ _ _ _ H1 N' A).
  - intros [H1 H2]. left. exists g, ts. auto.
Qed.
Lemma functor_leaf t l f a : atomic l -> same_tree t (tleaf l) ->
  (is_functor t f a <-> (same_tree t f /\ same_tree a (tint 0))).
Proof.
  intros N A. split.
  - intros [(g' & us & N' & H1 & H2 & H3)|(l' & N' & H1 & H2 & H3)].
    + exfalso. exact (not_node_leaf _ _ _ _ A N H1).
    + split; auto. eapply same_tree_trans; [exact H1|]. apply same_tree_sym. exact H2.
  - intros [H1 H2]. right. exists l. split; auto. split; auto. split; auto.
    eapply same_tree_trans; [apply same_tree_sym; exact H1|exact A].
Qed.

(** ** A new structure *)
Lemma push_vars_mem n : forall s, hH (push_vars n s) = hH s + Z.of_nat n /\
  tr (hm (push_vars n s)) = tr (hm s) /\
  forall x, mem_of (push_vars n s) x =
    if (hH s <=? x) && (x <? hH s + Z.of_nat n) then Some (Word (REF x)) else mem_of s x.
Proof.
  induction n as [|n IH]; intros s; cbn [push_vars].
  - split; [lia|]. split; auto. intros x. destruct (Z.leb_spec (hH s) x), (Z.ltb_spec x (hH s + Z.of_nat 0)); cbn; auto; lia.
  - destruct (IH (Global_Push s (REF (hH s)))) as (H1 & H2 & H3). unfold Global_Push in H1, H2, H3 |- *.
    cbn [hH hm tr mm] in *. split; [lia|]. split; auto. intros x. rewrite H3. unfold store.
    destruct (Z.leb_spec (hH s + 1) x), (Z.leb_spec (hH s) x), (Z.ltb_spec x (hH s + 1 + Z.of_nat n)),
      (Z.ltb_spec x (hH s + Z.of_nat (S n))), (Z.eqb_spec x (hH s)); cbn; auto; try lia; subst; auto.
Qed.

(** [s1] is [s] with a new block at [b]: a compound term named [f] with [n] new variables *)
Definition new_vars (s : hst) (s1 : hst) (b : addr) (n : nat) : Prop :=
  grows (mem_of s) (mem_of s1) /\ hH s <= b /\ hH s1 = b + Z.of_nat n /\
  forall x v, mem_of s1 x = Some v -> mem_of s x = Some v \/
    (hH s <= x < b /\ (forall w, v <> Word w)) \/ (b <= x < b + Z.of_nat n /\ v = Word (REF x)).

Lemma new_vars_ok c s s1 b n : state_ok c s -> new_vars s s1 b n -> b + Z.of_nat n <= LSSA c ->
  (forall x, hH s1 <= x < LSSA c -> mem_of s1 x = None) -> state_ok c s1.
Proof.
  intros (W & P & F) (G & Hb & Hh & N) Lb Fr. split; [|split; [lia|exact Fr]].
  apply (grows_wf c s); auto. intros x v E. destruct (N x v E) as [Q|[[Q1 Q2]|[Q1 ->]]]; auto.
  - right. split; [lia|]. intros w ->. destruct (Q2 w eq_refl).
  - right. split; [lia|]. intros w Q. injection Q as <-. left. reflexivity.
Qed.

(** binding a variable to the new block *)
Lemma new_struct c s s1 v t g b n w : state_ok c s -> word_ok c s t ->
  derefs (mem_of s) t (REF v) -> mem_of s v = Some (Word (REF v)) ->
  new_vars s s1 b n -> state_ok c s1 -> (forall i, (i < n)%nat -> mem_of s1 (b + Z.of_nat i) = Some (Word (REF (b + Z.of_nat i)))) ->
  word_ok c s1 w -> plain w ->
  (forall nu, same_tree (view s1 nu w) (tnode g (map (view s1 nu) (refs b n)))) ->
  step c s (Hst (Bind_UV c (hm s1) v w) (hH s1))
    (fun I => exists ts, length ts = n /\ same_tree (I t) (tnode g ts)) top.
Proof.
  intros O Wt D Ev (G & Hb & Hh & N) O1 Vs Ww Pw Tw.
  assert (Ev1 : mem_of s1 v = Some (Word (REF v))) by auto.
  assert (S1 := bind_step c s1 v w O1 Ev1 Ww Pw).
  assert (Ag : forall nu, agree c s (view s1 nu) (view s nu)).
  { intros nu x Wx. eapply grows_lab; eauto. apply O. }
  assert (Wd : forall x, word_ok c s x -> word_ok c s1 x) by (intros x; now apply grows_wf_word).
  assert (D1 : derefs (mem_of s1) t (REF v)) by (eapply grows_derefs; eauto).
  assert (Rs : resp c s (fun I => exists ts, length ts = n /\ same_tree (I t) (tnode g ts))).
  { apply (resp1 _ _ (fun x => exists ts, length ts = n /\ same_tree x (tnode g ts))); auto.
    intros x x' A (ts & Q1 & Q2). exists ts. split; auto. eapply same_tree_trans; [apply same_tree_sym; exact A|exact Q2]. }
  assert (Blk : forall x, b <= x < b + Z.of_nat n -> mem_of s x = None).
  { intros x Hx. destruct O as (_ & _ & F). apply F. destruct O1 as (_ & P1 & _). lia. }
  assert (WRv : word_ok c s1 (REF v)) by (exists (REF v); exact Ev1).
  destruct S1 as [O2 W2 D2 I2 U2 R2 R2']. split; auto.
  - intros nu'. destruct (D2 nu') as [nu1 A1]. exists nu1. eapply agree_trans; [eapply agree_words; eauto|apply Ag].
  - intros nu'. split; [|intros _; exact I]. intros _. destruct (D2 nu') as [nu1 A1].
    exists (map (view s1 nu1) (refs b n)). split; [now rewrite map_length, refs_length|].
    eapply same_tree_trans; [apply A1; auto|]. eapply same_tree_trans; [apply view_derefs; exact D1|].
    eapply same_tree_trans; [apply same_tree_sym, A1; exact WRv|].
    eapply same_tree_trans; [apply (proj1 (I2 nu')); exact I|]. eapply same_tree_trans; [apply A1; exact Ww|apply Tw].
  - intros nu (ts & Lt & Ht).
    set (nu1 := fun x => if (b <=? x) && (x <? b + Z.of_nat n) then nth (Z.to_nat (x - b)) ts (nu x) else nu x).
    assert (A0 : agree c s (view s nu) (view s1 nu1)).
    { intros x Wx. eapply same_tree_trans; [|apply same_tree_sym, Ag; exact Wx]. apply lab_nu. intros y Ey. unfold nu1.
      destruct (Z.leb_spec b y), (Z.ltb_spec y (b + Z.of_nat n)); cbn [andb]; try exact (same_tree_refl _).
      rewrite Blk in Ey by lia. discriminate. }
    assert (Tb : same_tree (view s1 nu1 w) (tnode g ts)).
    { eapply same_tree_trans; [apply Tw|]. apply same_node.
      assert (Q : forall k b' us, length us = k -> (forall i, (i < k)%nat -> same_tree (view s1 nu1 (REF (b' + Z.of_nat i))) (nth i us (nu 0))) ->
        Forall2 same_tree (map (view s1 nu1) (refs b' k)) us).
      { induction k as [|k IH]; intros b' us Lu Hu; destruct us as [|u us]; try discriminate; [constructor|].
        rewrite refs_S. cbn [map]. constructor.
        - specialize (Hu 0%nat ltac:(lia)). rewrite Z.add_0_r in Hu. exact Hu.
        - apply IH; [now injection Lu|]. intros i Hi. specialize (Hu (S i) ltac:(lia)).
          replace (b' + 1 + Z.of_nat i) with (b' + Z.of_nat (S i)) by lia. exact Hu. }
      apply Q; auto. intros i Hi. eapply same_tree_trans; [apply lab_unbound, Vs; auto|]. unfold nu1.
      destruct (Z.leb_spec b (b + Z.of_nat i)), (Z.ltb_spec (b + Z.of_nat i) (b + Z.of_nat n)); try lia. cbn [andb].
      replace (Z.to_nat (b + Z.of_nat i - b)) with i by lia.
      rewrite (nth_indep ts _ (nu 0)) by lia. apply same_tree_refl. }
    destruct (U2 nu1) as [nu' A1].
    { eapply same_tree_trans; [apply same_tree_sym, view_derefs; exact D1|].
      eapply same_tree_trans; [apply same_tree_sym, A0; exact Wt|]. eapply same_tree_trans; [exact Ht|apply same_tree_sym; exact Tb]. }
    exists nu'. eapply agree_trans; [exact A0|]. eapply agree_words; eauto.
Qed.

(** ** functor/3 *)
Lemma room_none c s n : room c s None n = true -> hH s + n <= LSSA c.
Proof. cbn. intros Q. now apply Z.leb_le in Q. Qed.

(** the name and arity of a structure stay the same *)
Lemma stc_kept c s s1 C b f n : step c s s1 C top -> word_ok c s (STC b) -> mem_of s b = Some (Func f n) ->
  mem_of s1 b = Some (Func f n).
Proof.
  intros S1 Wb E. destruct (st_words _ _ _ _ _ S1 _ Wb) as (f' & n' & E' & _).
  destruct (st_down _ _ _ _ _ S1 (fun _ => tatom 0)) as [nu A]. specialize (A (STC b) Wb).
  assert (Q : view s nu (STC b) [] (LFun f n)) by (now apply (lab_stc_nil _ nu b f n _ E)).
  apply A in Q. apply (lab_stc_nil _ _ b f' n' _ E') in Q. congruence.
Qed.

Lemma new_vars_struct c s v t g n : state_ok c s -> word_ok c s t ->
  derefs (mem_of s) t (REF v) -> mem_of s v = Some (Word (REF v)) ->
  (1 <= n)%nat -> ~ (g = ATOM_DOT /\ n = 2%nat) -> hH s + (Z.of_nat n + 1) <= LSSA c ->
  step c s (push_vars n (Hst (Bind_UV c (St (store (mem_of s) (hH s) (Func g n)) (tr (hm s))) v (STC (hH s))) (hH s + 1)))
    (fun I => exists ts, length ts = n /\ same_tree (I t) (tnode g ts)) top.
Proof.
  intros O Wt D Ev Hn ND Hr. set (h := hH s) in *.
  set (s1 := push_vars n (Hst (St (store (mem_of s) h (Func g n)) (tr (hm s))) (h + 1))).
  destruct (push_vars_mem n (Hst (St (store (mem_of s) h (Func g n)) (tr (hm s))) (h + 1))) as (Hh & Ht & Hm).
  fold s1 in Hh, Ht, Hm. cbn [hH hm mm tr] in Hh, Ht, Hm.
  assert (F : forall x, h <= x < LSSA c -> mem_of s x = None) by (apply O).
  assert (P : 0 <= h <= LSSA c) by (apply O).
  assert (Nv : ~ (h <= v < LSSA c)) by (intros Q; rewrite F in Ev by lia; discriminate).
  assert (G : grows (mem_of s) (mem_of s1)).
  { intros x cc E. rewrite Hm. unfold store.
    assert (~ (h <= x < LSSA c)) by (intros Q; rewrite F in E by lia; discriminate).
    destruct (Z.leb_spec (h + 1) x), (Z.ltb_spec x (h + 1 + Z.of_nat n)), (Z.eqb_spec x h); cbn [andb]; auto; lia. }
  assert (V1 : new_vars s s1 (h + 1) n).
  { split; [exact G|]. split; [fold h; lia|]. split; [exact Hh|]. intros x cc E. rewrite Hm in E. unfold store in E. fold h.
    destruct (Z.leb_spec (h + 1) x), (Z.ltb_spec x (h + 1 + Z.of_nat n)), (Z.eqb_spec x h); cbn [andb] in E; auto; try lia.
    all: first [right; right; split; [lia|congruence]|right; left; split; [lia|]; intros w Q; congruence]. }
  assert (O1 : state_ok c s1).
  { apply (new_vars_ok c s s1 (h + 1) n); auto; [lia|]. intros x Hx. rewrite Hm. unfold store. rewrite Hh in Hx.
    destruct (Z.leb_spec (h + 1) x), (Z.ltb_spec x (h + 1 + Z.of_nat n)), (Z.eqb_spec x h); cbn [andb]; try lia. apply F. lia. }
  assert (Vs : forall i, (i < n)%nat -> mem_of s1 (h + 1 + Z.of_nat i) = Some (Word (REF (h + 1 + Z.of_nat i)))).
  { intros i Hi. rewrite Hm. destruct (Z.leb_spec (h + 1) (h + 1 + Z.of_nat i)), (Z.ltb_spec (h + 1 + Z.of_nat i) (h + 1 + Z.of_nat n)); cbn [andb]; auto; lia. }
  assert (Eh : mem_of s1 h = Some (Func g n)).
  { rewrite Hm. destruct (Z.leb_spec (h + 1) h); [lia|]. cbn [andb]. apply store_same. }
  assert (Ws : words_at (mem_of s1) (h + 1) n) by (intros i Hi; eexists; apply Vs; auto).
  assert (WS : word_ok c s1 (STC h)).
  { exists g, n. split; auto. split; auto. split; auto. split; [lia|auto]. }
  assert (S1 := new_struct c s s1 v t g (h + 1) n (STC h) O Wt D Ev V1 O1 Vs WS Logic.I (fun nu => lab_stc_node _ nu h g n Eh Ws)).
  eapply step_ptw; [| |exact S1].
  - intros x. cbn [hm mm Bind_UV]. destruct (push_vars_mem n (Hst (Bind_UV c (St (store (mem_of s) h (Func g n)) (tr (hm s))) v (STC h)) (h + 1))) as (_ & _ & Hm2).
    rewrite Hm2. cbn [hm mm Bind_UV hH]. unfold store at 1. rewrite Hm.
    destruct (Z.eqb_spec x v) as [->|Nx].
    + destruct (Z.leb_spec (h + 1) v), (Z.ltb_spec v (h + 1 + Z.of_nat n)); cbn [andb]; try lia; now rewrite store_same.
    + destruct (Z.leb_spec (h + 1) x), (Z.ltb_spec x (h + 1 + Z.of_nat n)); cbn [andb]; auto; now rewrite (store_other _ v) by auto.
  - cbn [hH]. rewrite Hh. destruct (push_vars_mem n (Hst (Bind_UV c (St (store (mem_of s) h (Func g n)) (tr (hm s))) v (STC h)) (h + 1))) as (Q & _).
    rewrite Q. reflexivity.
Qed.

Lemma new_vars_list c s v t : state_ok c s -> word_ok c s t ->
  derefs (mem_of s) t (REF v) -> mem_of s v = Some (Word (REF v)) -> hH s + 2 <= LSSA c ->
  step c s (push_vars 2 (Hst (Bind_UV c (hm s) v (LST (hH s))) (hH s)))
    (fun I => exists ts, length ts = 2%nat /\ same_tree (I t) (tnode ATOM_DOT ts)) top.
Proof.
  intros O Wt D Ev Hr. cbn [push_vars].
  assert (WF := write_facts c s v t (REF (hH s)) (REF (hH s + 1)) O Hr D Ev Wt (or_introl eq_refl) (or_introl eq_refl)).
  destruct WF as (S1 & _). eapply step_equiv; [exact S1| |].
  - apply (resp1 _ _ (fun x => exists ts, length ts = 2%nat /\ same_tree x (tnode ATOM_DOT ts))); auto.
    intros x x' A (ts & Q1 & Q2). exists ts. split; auto. eapply same_tree_trans; [apply same_tree_sym; exact A|exact Q2].
  - intros nu. split.
    + intros (ts & L & A). destruct ts as [|x [|y [|z ts]]]; try discriminate. exists x, y. split; auto.
      eapply same_tree_trans; [exact A|]. apply same_tree_sym, cons_node.
    + intros (x & y & A & _). exists [x; y]. split; auto. eapply same_tree_trans; [exact A|apply cons_node].
Qed.

Lemma Functor_ok maxa c s t f a fuel : state_ok c s -> word_ok c s t -> word_ok c s f -> word_ok c s a ->
  (forall b, ~ derefs (mem_of s) f (FDV b)) ->
  runs (Functor_3 maxa fuel c s t f a) (right_answer c s (fun I => is_functor (I t) (I f) (I a))).
Proof.
  intros O Wt Wf Wa NF. unfold Functor_3.
  eapply runs_bind; [apply (runs_deref c s t fuel O Wt)|]. intros w (D & Ww & Rw).
  assert (RE : resp c s (fun I => is_functor (I t) (I f) (I a))) by (apply (resp3 _ _ is_functor); auto; apply inv_functor).
  assert (Ra : forall n s', word_ok c s' a -> resp c s' (fun I => same_tree (I a) (tint n))).
  { intros n s' Wa'. apply (resp1 _ _ (fun x => same_tree x (tint n))); auto. apply inv_int. }
  (* a compound term *)
  assert (Cmp : forall g n b (k : hst -> outcome (chk (lres hst))), compound_at s t g n b ->
     (forall s1, step c s s1 (fun I => same_tree (I f) (tatom g)) top -> k s1 = Un_Integer_Check fuel c s1 (Z.of_nat n) a) ->
     runs (andthen (Un_Atom_Check fuel c s g f) k)
       (right_answer c s (fun I => is_functor (I t) (I f) (I a)))).
  { intros g n b k (Ws & Hn & Tt) Hk.
    eapply runs_imp; [apply (andthen_step c s (fun I => same_tree (I f) (tatom g)) (fun I => same_tree (I a) (tint (Z.of_nat n))) _ k (Ra _ _ Wa) (un_atom_step c s g f fuel O Wf))|].
    - intros s1 S1. rewrite (Hk s1 S1). apply un_integer_step; [apply S1|apply S1; auto].
    - intros r. apply cspec_answer; auto. intros nu.
      assert (Ne : map (view s nu) (refs b n) <> []).
      { intros Q. apply (f_equal (@length tree)) in Q. rewrite map_length, refs_length in Q. cbn in Q. lia. }
      rewrite (functor_node _ _ _ (view s nu f) (view s nu a) Ne (Tt nu)). rewrite map_length, refs_length. apply iff_refl. }
  (* a constant *)
  assert (Cst : match w with INT _ | ATM _ | FDV _ | FLT _ => True | _ => False end ->
     runs (andthen (plainly (unify fuel c s w f)) (fun s => Un_Integer_Check fuel c s 0 a))
       (right_answer c s (fun I => is_functor (I t) (I f) (I a)))).
  { intros K. destruct (leaf_lab _ _ w Ww K) as (l & Al & Hl).
    eapply runs_imp; [apply (andthen_step c s (fun I => same_tree (I w) (I f)) (fun I => same_tree (I a) (tint 0)) _ _ (Ra _ _ Wa))|].
    - apply runs_plainly. eapply runs_imp; [apply (unify_step c s w f fuel O Ww Wf)|]. intros r. exact (fun x => x).
    - intros s1 S1. apply un_integer_step; [apply S1|apply S1; auto].
    - intros r. apply cspec_answer; auto. intros nu.
      assert (Dt : same_tree (view s nu t) (view s nu w)) by (apply view_derefs; exact D).
      assert (Tl : same_tree (view s nu t) (tleaf l)) by (eapply same_tree_trans; [exact Dt|apply Hl]).
      rewrite (functor_leaf _ l (view s nu f) (view s nu a) Al Tl). split; intros [Q1 Q2]; (split; [|exact Q2]).
      + eapply same_tree_trans; [apply same_tree_sym; exact Dt|exact Q1].
      + eapply same_tree_trans; [exact Dt|exact Q1]. }
  destruct w as [v|b|b|i|b|b|i]; try (apply Cst; exact Logic.I).
  - (* an unbound variable *)
    destruct Rw as [(v' & Qv & Ev)|Q]; [injection Qv as <-|destruct (Q v eq_refl)].
    eapply runs_bind; [apply (runs_deref c s f fuel O Wf)|]. intros fw (Df & Wfw & Rf).
    assert (Tf : forall nu, same_tree (view s nu f) (view s nu fw)) by (intros nu; apply view_derefs; exact Df).
    assert (NoA : (exists b, fw = LST b \/ fw = STC b) -> no_solution s (fun I => is_functor (I t) (I f) (I a))).
    { intros [b Q] nu Hf. assert (exists g ts, same_tree (view s nu fw) (tnode g ts)) as (g & ts & A).
      { destruct Q as [->| ->].
        - destruct (compound_lst c s (LST b) b (drf_other _ (LST b) ltac:(discriminate)) Wfw) as (_ & _ & A). eauto.
        - destruct (rd_func_ok c s b Wfw) as (g & n & _ & E & _).
          destruct (compound_stc c s (STC b) b g n (drf_other _ (STC b) ltac:(discriminate)) E Wfw) as (_ & _ & A). eauto. }
      assert (A' : same_tree (view s nu f) (tnode g ts)) by (eapply same_tree_trans; [apply Tf|exact A]).
      destruct Hf as [(g' & us & _ & _ & H2 & _)|(l & Al & _ & H2 & _)].
      - exact (not_node_leaf _ (LAtm g') _ _ H2 Logic.I A').
      - exact (not_node_leaf _ l _ _ H2 Al A'). }
    assert (Body : match fw with INT _ | ATM _ | FLT _ => True | _ => False end ->
      runs (check n <- Rd_Positive_Check fuel (mem_of s) a;
        if maxa <? n then Ret (Raise EMaxArity) else
        match fw with
        | ATM i =>
          if (i =? ATOM_DOT) && (n =? 2) then
            do g <- Get_List fuel c s t;
            match g with
            | None => Ret (Val No)
            | Some (s, md) =>
              if room c s md 2 then Ret (Val (Ok (Unify_Void 2 s md))) else Ret (Val Fatal)
            end
          else if 0 <? n then
            if room c s None (n + 1) then
              do g <- Get_Structure fuel c s i (Z.to_nat n) t;
              match g with
              | None => Ret (Val No)
              | Some (s, md) => Ret (Val (Ok (Unify_Void (Z.to_nat n) s md)))
              end
            else Ret (Val Fatal)
          else plainly (unify fuel c s fw t)
        | _ => if negb (n =? 0) then Ret (Raise EAtom) else plainly (unify fuel c s fw t)
        end) (right_answer c s (fun I => is_functor (I t) (I f) (I a)))).
    { intros Kf.
      assert (Kf' : match fw with INT _ | ATM _ | FDV _ | FLT _ => True | _ => False end) by (destruct fw; auto).
      destruct (leaf_lab _ _ fw Wfw Kf') as (l & Al & Hl).
      assert (Tl : forall nu, same_tree (view s nu f) (tleaf l)) by (intros nu; eapply same_tree_trans; [apply Tf|apply Hl]).
      eapply runs_bind; [apply (rd_positive c s a fuel O Wa)|]. intros [n|e]; cbn [cbind].
      2: { intros [->|[Q N]]; [exact Logic.I|]. assert (K : no_solution s (fun I => is_functor (I t) (I f) (I a))).
           { intros nu [(g & ts & _ & _ & _ & H3)|(l' & _ & _ & _ & H3)]; [apply (N nu (Z.of_nat (length ts))); auto; lia|apply (N nu 0); auto; lia]. }
           destruct Q as [->| ->]; exact K. }
      intros [Hp Da]. destruct (maxa <? n); [exact Logic.I|].
      assert (Ta : forall nu, same_tree (view s nu a) (tint n)).
      { intros nu. eapply same_tree_trans; [apply view_derefs; exact Da|]. apply lab_int_tree. }
      assert (Ai : forall nu k, same_tree (view s nu a) (tint k) -> n = k).
      { intros nu k Q. apply tint_inj. eapply same_tree_trans; [apply same_tree_sym, Ta|exact Q]. }
      (* arity 0 *)
      assert (Zero : n = 0 -> runs (plainly (unify fuel c s fw t)) (right_answer c s (fun I => is_functor (I t) (I f) (I a)))).
      { intros ->. apply runs_plainly.
        assert (Eq : forall nu, is_functor (view s nu t) (view s nu f) (view s nu a) <-> same_tree (view s nu fw) (view s nu t)).
        { intros nu. split.
          - intros [(g & ts & Ne & _ & _ & H3)|(l' & _ & H1 & H2 & _)].
            + apply Ai in H3. destruct ts; [congruence|cbn in H3; lia].
            + eapply same_tree_trans; [apply same_tree_sym, Tf|]. eapply same_tree_trans; [exact H2|apply same_tree_sym; exact H1].
          - intros A. right. exists l. split; auto. split; [|split; [apply Tl|apply Ta]].
            eapply same_tree_trans; [apply same_tree_sym; exact A|apply Hl]. }
        eapply runs_imp; [apply (unify_step c s fw t fuel O Wfw Wt)|]. intros r Hr.
        apply (cspec_answer c s _ (fun I => same_tree (I fw) (I t)) (Val r)); auto. }
      (* a compound term *)
      assert (Mk : forall s' i, fw = ATM i -> 0 < n ->
         step c s s' (fun I => exists ts, length ts = Z.to_nat n /\ same_tree (I t) (tnode i ts)) top ->
         right_answer c s (fun I => is_functor (I t) (I f) (I a)) (Val (Ok s'))).
      { intros s' i -> Hn S1. cbn [right_answer answer_of]. apply step_answer. eapply step_equiv; [exact S1|exact RE|].
        intros nu. assert (Tfi : same_tree (view s nu f) (tatom i)) by (eapply same_tree_trans; [apply Tf|apply lab_atom]). split.
        - intros [(g & ts & Ne & H1 & H2 & H3)|(l' & _ & _ & _ & H3)].
          + exists ts. apply Ai in H3. split; [lia|].
            assert (Q : LAtm i = LAtm g).
            { apply same_leaf_root. eapply same_tree_trans; [apply same_tree_sym; exact Tfi|exact H2]. }
            injection Q as ->. exact H1.
          + apply Ai in H3. lia.
        - intros (ts & Lt & A). left. exists i, ts. split; [intros ->; cbn in Lt; lia|]. split; auto. split; auto.
          replace (Z.of_nat (length ts)) with n by lia. apply Ta. }
      assert (Deref : runs (deref fuel (mem_of s) t) (fun u => u = REF v)).
      { eapply runs_imp; [apply (runs_deref c s t fuel O Wt)|]. intros u (Du & _). exact (derefs_det _ _ _ Du _ D). }
      destruct fw as [?|?|?|i|?|?|i]; try destruct Kf.
      - destruct ((i =? ATOM_DOT) && (n =? 2)) eqn:Q2.
        + apply andb_true_iff in Q2 as [Qi Qn]. apply Z.eqb_eq in Qi, Qn. subst i n.
          unfold Get_List. destruct (deref fuel (mem_of s) t) as [u| |]; [|destruct Deref|exact Logic.I]. cbn [runs] in Deref. subst u. cbn [bind].
          destruct (room c _ None 2) eqn:Rm; [|exact Logic.I]. apply room_none in Rm. cbn [hH] in Rm. cbn [runs Unify_Void].
          apply (Mk _ ATOM_DOT eq_refl ltac:(lia)). apply new_vars_list; auto.
        + destruct (Z.ltb_spec 0 n) as [Hn|Hn]; [|apply Zero; lia].
          destruct (room c s None (n + 1)) eqn:Rm; [|exact Logic.I]. apply room_none in Rm.
          unfold Get_Structure. destruct (deref fuel (mem_of s) t) as [u| |]; [|destruct Deref|exact Logic.I]. cbn [runs] in Deref. subst u. cbn [bind].
          cbn [runs Unify_Void]. apply (Mk _ i eq_refl Hn). apply new_vars_struct; auto; [lia| |lia].
          intros [-> Q]. rewrite Z.eqb_refl in Q2. cbn [andb] in Q2. apply Z.eqb_neq in Q2. lia.
      - destruct (Z.eqb_spec n 0) as [->|Nn]; [apply Zero; reflexivity|]. cbn [negb runs right_answer].
        intros nu [(g & ts & _ & _ & H2 & _)|(l' & _ & _ & _ & H3)]; [|apply Ai in H3; lia].
        assert (Q : same_tree (tleaf l) (tleaf (LAtm g))) by (eapply same_tree_trans; [apply same_tree_sym, Tl|exact H2]).
        apply same_leaf_root in Q. subst l.
        assert (Z1 := proj2 (Hl nu [] (LAtm g)) (conj eq_refl eq_refl)). inversion Z1.
      - destruct (Z.eqb_spec n 0) as [->|Nn]; [apply Zero; reflexivity|]. cbn [negb runs right_answer].
        intros nu [(g & ts & _ & _ & H2 & _)|(l' & _ & _ & _ & H3)]; [|apply Ai in H3; lia].
        assert (Q : same_tree (tleaf l) (tleaf (LAtm g))) by (eapply same_tree_trans; [apply same_tree_sym, Tl|exact H2]).
        apply same_leaf_root in Q. subst l.
        assert (Z1 := proj2 (Hl nu [] (LAtm g)) (conj eq_refl eq_refl)). inversion Z1. }
    destruct fw as [?|b|b|i|b|b|i]; try exact Logic.I; try (apply Body; exact Logic.I).
    + cbn [runs right_answer]. apply NoA. eauto.
    + cbn [runs right_answer]. apply NoA. eauto.
    + destruct (NF b Df).
  - apply (Cmp ATOM_DOT 2%nat b); [eapply compound_lst; eauto|]. intros s1 _. reflexivity.
  - destruct (rd_func_ok c s b Ww) as (g & n & R & E & _). rewrite R. cbn [bind fst].
    apply (Cmp g n (b + 1)); [eapply compound_stc; eauto|]. intros s1 S1.
    assert (E1 := stc_kept _ _ _ _ _ _ _ S1 Ww E). unfold rd_func. rewrite E1. reflexivity.
Qed.
