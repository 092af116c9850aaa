(** What each instruction used by the list predicates does to the solutions. *)
Require Import ZArith List Bool Lia.
Require Import Verif.Term_Model Verif.Heap_Model Verif.Heap_Proofs Verif.Unify_Model Verif.Unify_Spec
  Verif.Unify_Proofs Verif.Unify_Proofs2 Verif.Binding_Model Verif.Binding_Proofs Verif.Copy_Model
  Verif.List_Model Verif.List_Spec Verif.List_Proofs.
Import ListNotations.
Open Scope Z_scope.

Local Notation word_ok c s w := (wf_word (LSSA c) (mm (hm s)) w).

(** ** runs *)
Lemma runs_bind {A B} (o : outcome A) (k : A -> outcome B) Q1 Q2 :
  runs o Q1 -> (forall x, Q1 x -> runs (k x) Q2) -> runs (bind o k) Q2.
Proof. destruct o; cbn; auto. Qed.
Lemma runs_imp {A} (o : outcome A) (Q1 Q2 : A -> Prop) : runs o Q1 -> (forall x, Q1 x -> Q2 x) -> runs o Q2.
Proof. destruct o; cbn; auto. Qed.

(** a result: [Q] on success, [N] on failure *)
Definition rspec {A} (Q : A -> Prop) (N : Prop) (r : lres A) : Prop :=
  match r with Ok x => Q x | No => N | Err => False | Fatal | Fd => True end.

Lemma runs_deref c s w fuel : state_ok c s -> word_ok c s w ->
  runs (deref fuel (mm (hm s)) w) (fun u => derefs (mm (hm s)) w u /\ word_ok c s u /\
    ((exists a, u = REF a /\ mm (hm s) a = Some (Word (REF a))) \/ forall a, u <> REF a)).
Proof.
  intros [W _] Ww. destruct (deref_ok (LSSA c) (mm (hm s)) w fuel W Ww) as [->|(u & -> & D & H)]; cbn; auto.
Qed.
Lemma runs_rd c s a w : state_ok c s -> mm (hm s) a = Some (Word w) -> rd_word (mm (hm s)) a = Ret w.
Proof. intros _ E. unfold rd_word. now rewrite E. Qed.

(** ** goals that only depend on trees *)
Definition inv1 (P : tree -> Prop) : Prop := forall a a', same_tree a a' -> P a -> P a'.
Definition inv2 (P : tree -> tree -> Prop) : Prop :=
  forall a a' b b', same_tree a a' -> same_tree b b' -> P a b -> P a' b'.
Definition inv3 (P : tree -> tree -> tree -> Prop) : Prop :=
  forall a a' b b' d d', same_tree a a' -> same_tree b b' -> same_tree d d' -> P a b d -> P a' b' d'.
Lemma resp1 c s P u : inv1 P -> word_ok c s u -> resp c s (fun I => P (I u)).
Proof. intros V U I J A. apply V. apply A; auto. Qed.
Lemma resp2 c s P u v : inv2 P -> word_ok c s u -> word_ok c s v -> resp c s (fun I => P (I u) (I v)).
Proof. intros V U1 U2 I J A. apply V; apply A; auto. Qed.
Lemma resp3 c s P u v w : inv3 P -> word_ok c s u -> word_ok c s v -> word_ok c s w ->
  resp c s (fun I => P (I u) (I v) (I w)).
Proof. intros V U1 U2 U3 I J A. apply V; apply A; auto. Qed.
Lemma inv_same : inv2 same_tree.
Proof.
  intros a a' b b' A B H. eapply same_tree_trans; [apply same_tree_sym; exact A|].
  eapply same_tree_trans; eauto.
Qed.
Lemma inv_atom i : inv1 (fun t => same_tree t (tatom i)).
Proof. intros a a' A H. eapply same_tree_trans; [apply same_tree_sym; exact A|auto]. Qed.
Lemma inv_int i : inv1 (fun t => same_tree t (tint i)).
Proof. intros a a' A H. eapply same_tree_trans; [apply same_tree_sym; exact A|auto]. Qed.
Lemma inv_cons : inv1 is_cons.
Proof. intros a a' A (h & t & H). exists h, t. eapply same_tree_trans; [apply same_tree_sym; exact A|auto]. Qed.
(** the first element of a list *)
Definition starts (x t : tree) : Prop := exists u, same_tree t (tcons x u).
Lemma inv_starts : inv2 starts.
Proof.
  intros a a' b b' A B (u & H). exists u. eapply same_tree_trans; [apply same_tree_sym; exact B|].
  eapply same_tree_trans; [exact H|]. apply same_tcons; auto. apply same_tree_refl.
Qed.

(** ** Pl_Unify *)
Lemma ext_ok c s m' (W : wf (LSSA c) m') tr' : state_ok c s -> ext (mm (hm s)) m' ->
  state_ok c (Hst (St m' tr') (hH s)).
Proof.
  intros (_ & P & F) X. split; [exact W|]. split; [exact P|]. intros a Ha. cbn [hm mm].
  destruct (X a) as [->|[E _]]; auto. cbn [hH] in Ha. rewrite (F a Ha) in E. discriminate.
Qed.
Lemma unify_step c s u v fuel : state_ok c s -> word_ok c s u -> word_ok c s v ->
  runs (unify fuel c s u v)
    (rspec (fun s' => step c s s' (fun I => same_tree (I u) (I v)) top)
       (no_solution s (fun I => same_tree (I u) (I v)))).
Proof.
  intros O Wu Wv. unfold unify. assert (W := proj1 O).
  destruct (Unify false fuel c (hm s) u v) as [[r t]| |] eqn:E; [|exfalso|exact I].
  2: { exact (Unify_no_UB _ _ _ _ _ _ W Wu Wv E). }
  destruct (Unify_sound _ _ _ _ _ _ _ _ W Wu Wv E) as [(W' & X & _) Sm].
  assert (Cm : forall nu, same (mm (hm s)) nu u v -> complete_res nu (hm s) r t).
  { intros nu Q. apply (Unify_complete false c nu fuel ltac:(discriminate) (hm s) u v); auto. }
  destruct r; cbn.
  - destruct t as [m' tr']. split.
    + apply ext_ok; auto.
    + intros w. apply ext_wf_word. exact X.
    + intros nu'. exists (vals m' nu'). intros w _. apply (ext_lab _ _ nu' X).
    + intros nu'. split; [|intros _; exact I]. intros _. exact (Sm eq_refl nu').
    + intros nu Q. exists nu. intros w _. apply (proj2 (Cm nu Q) eq_refl).
    + apply resp2; auto. apply inv_same.
    + apply resp_top.
  - intros nu Q. apply (proj1 (Cm nu Q)). reflexivity.
  - exact I.
Qed.

(** ** binding a variable *)
Definition plain (w : word) : Prop := match w with REF _ | FDV _ => False | _ => True end.
Lemma bind_step c s a w : state_ok c s -> mm (hm s) a = Some (Word (REF a)) -> word_ok c s w -> plain w ->
  step c s (Hst (Bind_UV c (hm s) a w) (hH s)) (fun I => same_tree (I (REF a)) (I w)) top.
Proof.
  intros O Ea Ww Pw. assert (W := proj1 O).
  assert (Q : Do_Copy_Of_Word w = w) by (destruct w; cbn in *; tauto).
  assert (N : forall b, w <> REF b) by (intros b ->; exact Pw).
  assert (B : bindable a w) by (intros b Eb; destruct (N b Eb)).
  assert (D : derefs (mm (hm s)) w w) by (now apply drf_other).
  assert (W' := bind_wf (LSSA c) _ a w W Ea Ww B D). rewrite Q in W'.
  assert (X := store_ext _ a w Ea).
  split.
  - apply (ext_ok c s _ W'); auto.
  - intros x. apply ext_wf_word. exact X.
  - intros nu'. exists (vals (store (mm (hm s)) a (Word w)) nu'). intros x _. apply (ext_lab _ _ nu' X).
  - intros nu'. split; [|intros _; exact I]. intros _.
    assert (K := bind_same (LSSA c) _ a w nu' Ea Ww). rewrite Q in K. exact K.
  - intros nu Sm. exists nu. intros x _.
    assert (K := bind_keeps (LSSA c) _ nu a w W Ea Ww (N a)). rewrite Q in K. apply K; auto.
    intros b Eb. destruct (N b Eb).
  - apply resp2; auto; [apply inv_same|]. exists (REF a). exact Ea.
  - apply resp_top.
Qed.

Lemma view_derefs s nu w u : derefs (mm (hm s)) w u -> same_tree (view s nu w) (view s nu u).
Proof. intros D. now apply lab_derefs. Qed.

Section Nil.
Variable nil : Z.
Lemma get_nil_step c s w fuel : state_ok c s -> word_ok c s w ->
  runs (get_nil nil fuel c s w)
    (rspec (fun s' => step c s s' (fun I => same_tree (I w) (tatom nil)) top)
       (no_solution s (fun I => same_tree (I w) (tatom nil)) /\
        forall a, ~ derefs (mm (hm s)) w (REF a))).
Proof.
  intros O Ww. unfold get_nil, Get_Nil.
  assert (H := runs_deref c s w fuel O Ww).
  destruct (deref fuel (mm (hm s)) w) as [u| |]; [|destruct H|exact I].
  destruct H as (D & Wu & Ru). cbn [bind].
  assert (Rw : resp c s (fun I => same_tree (I w) (tatom nil))) by (apply (resp1 _ _ (fun t => same_tree t (tatom nil))); auto; apply inv_atom).
  destruct Ru as [(a & -> & Ea)|Nu].
  - cbn. eapply step_of; [apply (bind_step c s a (ATM nil)); cbn; auto|exact Rw|apply resp_top| |].
    + cbn. intros nu Q. eapply same_tree_trans; [apply same_tree_sym, view_derefs; exact D|].
      eapply same_tree_trans; [exact Q|]. apply same_tree_sym, lab_atom.
    + intros nu'. split; [|intros _; exact I]. intros _.
      assert (S1 := bind_step c s a (ATM nil) O Ea I I).
      destruct (st_down _ _ _ _ _ S1 nu') as [nu A].
      eapply same_tree_trans; [apply A; auto|]. eapply same_tree_trans; [apply view_derefs; exact D|].
      eapply same_tree_trans; [apply same_tree_sym, A; exists (REF a); exact Ea|].
      eapply same_tree_trans; [apply (proj1 (st_iff _ _ _ _ _ S1 nu')); exact I|]. apply lab_atom.
  - assert (N1 : forall a, ~ derefs (mm (hm s)) w (REF a)).
    { intros a Da. apply (Nu a). eapply derefs_det; eauto. }
    replace (match u with REF a => Ret (true, Hst (Bind_UV c (hm s) a (ATM nil)) (hH s)) | _ => Ret (word_eqb u (ATM nil), s) end)
      with (Ret (word_eqb u (ATM nil), s)) by (destruct u; auto; destruct (Nu a eq_refl)).
    cbn. destruct (word_eqb u (ATM nil)) eqn:Q.
    + apply word_eqb_eq in Q as ->. cbn. apply step_refl; auto; [apply resp_top|].
      intros nu. split; [|intros _; exact I]. intros _.
      eapply same_tree_trans; [apply view_derefs; exact D|]. apply lab_atom.
    + cbn. split; auto. intros nu Sm.
      apply (not_atom (mm (hm s)) nu u nil Nu).
      * intros ->. rewrite (proj2 (word_eqb_eq _ _) eq_refl) in Q. discriminate.
      * eapply same_tree_trans; [apply same_tree_sym, view_derefs; exact D|exact Sm].
Qed.
End Nil.

(** ** two new cells *)
Definition glob (c : cfg) (w : word) : Prop := forall b, w = REF b -> b < LSSA c.
(** what is stored in the new cell [h]: an unbound variable, or a word of [s] *)
Definition new_ok (c : cfg) (s : hst) (h : addr) (w : word) : Prop :=
  w = REF h \/ (word_ok c s w /\ glob c w).

Definition alloc2 (s : hst) (u v : word) : hst := Global_Push (Global_Push s u) v.

Lemma none_words c s a b : state_ok c s -> hH s <= a < LSSA c -> ~ word_ok c s (REF a) /\
  mm (hm s) a <> Some b.
Proof.
  intros (_ & _ & F) Ha. rewrite (F a Ha). cbn. rewrite (F a Ha). split; [intros [w E]; discriminate|discriminate].
Qed.

Lemma alloc_facts c s u v : state_ok c s -> hH s + 2 <= LSSA c ->
  new_ok c s (hH s) u -> new_ok c s (hH s + 1) v ->
  let s1 := alloc2 s u v in
  state_ok c s1 /\ (forall w, word_ok c s w -> word_ok c s1 w) /\
  word_ok c s1 u /\ word_ok c s1 v /\ word_ok c s1 (LST (hH s)) /\
  (forall nu, agree c s (view s1 nu) (view s nu)) /\
  (forall nu, same_tree (view s1 nu (LST (hH s))) (tcons (view s1 nu u) (view s1 nu v))) /\
  (forall nu th tt, (u = REF (hH s) \/ same_tree th (view s nu u)) ->
     (v = REF (hH s + 1) \/ same_tree tt (view s nu v)) ->
     exists nu', agree c s (view s nu) (view s1 nu') /\
       same_tree (view s1 nu' (LST (hH s))) (tcons th tt)).
Proof.
  intros O Hr Nu Nv. cbn zeta. destruct O as (W & P & F).
  set (m := mm (hm s)) in *. set (h := hH s) in *.
  assert (N0 : m h = None) by (apply F; lia). assert (N1 : m (h + 1) = None) by (apply F; lia).
  set (m0 := store m h (Word u)). set (m1 := store m0 (h + 1) (Word v)).
  assert (Em : mm (hm (alloc2 s u v)) = m1) by reflexivity.
  assert (Eh : hH (alloc2 s u v) = h + 2) by (unfold alloc2, Global_Push; cbn [hH]; unfold h; lia).
  assert (N1' : m0 (h + 1) = None) by (unfold m0; rewrite store_other by lia; auto).
  assert (W0 : wf (LSSA c) m0).
  { apply fresh_wf; auto; [lia|]. destruct Nu as [->|[A B]]; [left; reflexivity|right; split; auto]. }
  assert (K0 : forall w, wf_word (LSSA c) m w -> wf_word (LSSA c) m0 w) by (intros w; apply fresh_wf_word; auto).
  assert (W1 : wf (LSSA c) m1).
  { apply fresh_wf; auto; [lia|]. destruct Nv as [->|[A B]]; [left; reflexivity|right; split; auto]. }
  assert (K1 : forall w, wf_word (LSSA c) m0 w -> wf_word (LSSA c) m1 w) by (intros w; apply fresh_wf_word; auto).
  assert (C0 : m1 h = Some (Word u)).
  { unfold m1. rewrite store_other by lia. unfold m0. apply store_same. }
  assert (C1 : m1 (h + 1) = Some (Word v)) by (unfold m1; apply store_same).
  assert (A1 : forall nu w, wf_word (LSSA c) m w -> same_tree (lab m1 nu w) (lab m nu w)).
  { intros nu w Ww. eapply same_tree_trans; [eapply fresh_lab; eauto|]. eapply fresh_lab; eauto. }
  assert (Tl : forall nu, same_tree (lab m1 nu (LST h)) (tcons (lab m1 nu u) (lab m1 nu v))).
  { intros nu. now apply lab_lst. }
  split; [|split; [|split; [|split; [|split; [|split; [|split]]]]]].
  - split; [rewrite Em; exact W1|]. rewrite Eh, Em. split; [lia|]. intros a Ha.
    unfold m1, m0. rewrite !store_other by lia. apply F. lia.
  - intros w Ww. rewrite Em. auto.
  - rewrite Em. destruct Nu as [->|[A _]]; auto. exists (REF h). exact C0.
  - rewrite Em. destruct Nv as [->|[A _]]; auto. exists (REF (h + 1)). exact C1.
  - rewrite Em. cbn. split; [lia|]. intros i Hi. assert (Q : i = 0%nat \/ i = 1%nat) by lia.
    destruct Q as [->| ->]; [rewrite Z.add_0_r; eauto|]. exists v. exact C1.
  - intros nu w Ww. unfold view. rewrite Em. apply A1. exact Ww.
  - intros nu. unfold view. rewrite Em. apply Tl.
  - intros nu th tt Hu Hv.
    set (nu' := fun b => if b =? h then th else if b =? h + 1 then tt else nu b).
    assert (Q : forall w, same_tree (lab m nu w) (lab m nu' w)).
    { intros w. apply lab_nu. intros a Ea. unfold nu'.
      destruct (Z.eqb_spec a h) as [->|]; [congruence|]. destruct (Z.eqb_spec a (h + 1)) as [->|]; [congruence|].
      apply same_tree_refl. }
    exists nu'. unfold view. rewrite Em. split.
    + intros w Ww. unfold view. eapply same_tree_trans; [apply Q|]. apply same_tree_sym, A1. exact Ww.
    + eapply same_tree_trans; [apply Tl|]. apply same_tcons.
      * destruct Nu as [->|[A B]].
        -- eapply same_tree_trans; [apply lab_unbound; exact C0|]. unfold nu'. rewrite Z.eqb_refl. apply same_tree_refl.
        -- destruct Hu as [Eu|Hu].
           { exfalso. rewrite Eu in A. destruct A as [x E]. fold m h in E. congruence. }
           eapply same_tree_trans; [apply A1; exact A|]. eapply same_tree_trans; [apply same_tree_sym, Q|].
           apply same_tree_sym. exact Hu.
      * destruct Nv as [->|[A B]].
        -- eapply same_tree_trans; [apply lab_unbound; exact C1|]. unfold nu'. rewrite Z.eqb_refl.
           destruct (Z.eqb_spec (h + 1) h); [lia|]. apply same_tree_refl.
        -- destruct Hv as [Eu|Hv].
           { exfalso. rewrite Eu in A. destruct A as [x E]. fold m h in E. congruence. }
           eapply same_tree_trans; [apply A1; exact A|]. eapply same_tree_trans; [apply same_tree_sym, Q|].
           apply same_tree_sym. exact Hv.
Qed.

(** ** a variable bound to a new list cell *)
Definition write2 (c : cfg) (s : hst) (a : addr) (u v : word) : hst :=
  alloc2 (Hst (Bind_UV c (hm s) a (LST (hH s))) (hH s)) u v.

Lemma write_facts c s a w u v : state_ok c s -> hH s + 2 <= LSSA c ->
  derefs (mm (hm s)) w (REF a) -> mm (hm s) a = Some (Word (REF a)) -> word_ok c s w ->
  new_ok c s (hH s) u -> new_ok c s (hH s + 1) v ->
  let s' := write2 c s a u v in
  step c s s' (fun I => exists th tt, same_tree (I w) (tcons th tt) /\
     (u = REF (hH s) \/ same_tree th (I u)) /\ (v = REF (hH s + 1) \/ same_tree tt (I v))) top /\
  word_ok c s' u /\ word_ok c s' v /\
  (forall nu, same_tree (view s' nu w) (tcons (view s' nu u) (view s' nu v))).
Proof.
  intros O Hr D Ea Ww Nu Nv. cbn zeta.
  assert (Na : a <> hH s /\ a <> hH s + 1).
  { split; intros ->; (eapply (none_words c s); [exact O| |exact Ea]); lia. }
  assert (AF := alloc_facts c s u v O Hr Nu Nv). cbn zeta in AF.
  set (s1 := alloc2 s u v) in *. destruct AF as (O1 & K1 & Wu & Wv & Wl & A1 & T1 & U1).
  assert (Ea1 : mm (hm s1) a = Some (Word (REF a))).
  { unfold s1, alloc2, Global_Push. cbn [hm mm hH]. rewrite !store_other by lia. exact Ea. }
  assert (D1 : derefs (mm (hm s1)) w (REF a)).
  { assert (Q : forall w u, derefs (mm (hm s)) w u -> derefs (mm (hm s1)) w u).
    { intros x y. unfold s1, alloc2, Global_Push. cbn [hm mm hH]. destruct O as (_ & _ & F).
      induction 1 as [b Eb|b z z' Eb N Dz IH|z N].
      - apply drf_self. rewrite !store_other; auto; intros ->; rewrite F in Eb; try discriminate; lia.
      - eapply drf_step; eauto. rewrite !store_other; auto; intros ->; rewrite F in Eb; try discriminate; lia.
      - now apply drf_other. }
    auto. }
  assert (B := bind_step c s1 a (LST (hH s)) O1 Ea1 Wl I).
  set (s2 := Hst (Bind_UV c (hm s1) a (LST (hH s))) (hH s1)) in *.
  set (C := fun I : word -> tree => exists th tt, same_tree (I w) (tcons th tt) /\
     (u = REF (hH s) \/ same_tree th (I u)) /\ (v = REF (hH s + 1) \/ same_tree tt (I v))).
  assert (T2 : forall nu, same_tree (view s2 nu w) (tcons (view s2 nu u) (view s2 nu v))).
  { intros nu. destruct (st_down _ _ _ _ _ B nu) as [nu1 A2].
    eapply same_tree_trans; [apply A2; auto|].
    eapply same_tree_trans; [apply view_derefs; exact D1|].
    eapply same_tree_trans; [apply same_tree_sym, A2; exists (REF a); exact Ea1|].
    eapply same_tree_trans; [apply (proj1 (st_iff _ _ _ _ _ B nu)); exact I|].
    eapply same_tree_trans; [apply A2; exact Wl|].
    eapply same_tree_trans; [apply T1|]. apply same_tcons; apply same_tree_sym; apply A2; auto. }
  assert (S2 : step c s s2 C top).
  { assert (RC : resp c s C).
    { intros I J A (th & tt & H1 & H2 & H3). exists th, tt. split.
      - eapply same_tree_trans; [apply same_tree_sym, A; auto|exact H1].
      - split.
        + destruct H2 as [H2|H2]; auto. destruct Nu as [Nu|[Nu _]]; auto.
          right. eapply same_tree_trans; [exact H2|]. apply A; auto.
        + destruct H3 as [H3|H3]; auto. destruct Nv as [Nv|[Nv _]]; auto.
          right. eapply same_tree_trans; [exact H3|]. apply A; auto. }
    split; auto.
    - apply B.
    - intros x Wx. apply (st_words _ _ _ _ _ B). auto.
    - intros nu'. destruct (st_down _ _ _ _ _ B nu') as [nu1 A2]. exists nu1.
      eapply agree_trans; [|apply A1]. eapply agree_words; eauto.
    - intros nu'. split; [|intros _; exact I]. intros _. exists (view s2 nu' u), (view s2 nu' v).
      split; [apply T2|]. split; right; apply same_tree_refl.
    - intros nu (th & tt & H1 & H2 & H3). destruct (U1 nu th tt H2 H3) as (nu' & A3 & H4).
      destruct (st_up _ _ _ _ _ B nu') as [nu2 A4].
      + eapply same_tree_trans; [apply same_tree_sym, view_derefs; exact D1|].
        eapply same_tree_trans; [apply same_tree_sym, A3; exact Ww|].
        eapply same_tree_trans; [exact H1|]. apply same_tree_sym. exact H4.
      + exists nu2. eapply agree_trans; [exact A3|]. eapply agree_words; eauto.
    - apply resp_top. }
  assert (Q : forall x, mm (hm s2) x = mm (hm (write2 c s a u v)) x).
  { intros x. unfold s2, s1, write2, alloc2, Global_Push, Bind_UV. cbn [hm mm hH]. unfold store.
    repeat match goal with |- context [x =? ?y] => destruct (Z.eqb_spec x y) end; auto; lia. }
  split; [eapply step_ptw; [exact Q| |exact S2]; reflexivity|].
  split; [eapply wf_word_ptw; [exact Q|]; apply (st_words _ _ _ _ _ B); auto|].
  split; [eapply wf_word_ptw; [exact Q|]; apply (st_words _ _ _ _ _ B); auto|].
  intros nu. unfold view. eapply same_tree_trans; [apply same_tree_sym, lab_ptw_iff; exact Q|].
  eapply same_tree_trans; [apply T2|]. apply same_tcons; apply lab_ptw_iff; exact Q.
Qed.

(** ** a list cell that is read *)
Lemma read_facts c s w a : state_ok c s -> derefs (mm (hm s)) w (LST a) -> word_ok c s (LST a) ->
  exists x y, mm (hm s) a = Some (Word x) /\ mm (hm s) (a + 1) = Some (Word y) /\
    word_ok c s x /\ word_ok c s y /\ glob c x /\ glob c y /\
    forall nu, same_tree (view s nu w) (tcons (view s nu x) (view s nu y)).
Proof.
  intros (W & P & F) D [La Ws].
  destruct (Ws 0%nat ltac:(lia)) as [x Ex]. rewrite Z.add_0_r in Ex.
  destruct (Ws 1%nat ltac:(lia)) as [y Ey]. change (a + Z.of_nat 1) with (a + 1) in Ey.
  exists x, y. split; auto. split; auto. split; [eapply wf_cell; eauto|]. split; [eapply wf_cell; eauto|].
  split; [intros b ->; destruct (wf_ref _ _ W _ _ Ex); lia|].
  split; [intros b ->; destruct (wf_ref _ _ W _ _ Ey); lia|].
  intros nu. eapply same_tree_trans; [apply view_derefs; exact D|]. now apply lab_lst.
Qed.
Lemma copy_glob c s x : word_ok c s x -> glob c x -> glob c (Do_Copy_Of_Word x).
Proof. destruct x; cbn; intros W G b Q; try discriminate; auto. injection Q as <-. tauto. Qed.

(** ** open_list *)
Definition opened (c : cfg) (s : hst) (w : word) (r : word * word * hst) : Prop :=
  let '(x, y, s') := r in
  step c s s' (fun I => is_cons (I w)) top /\
  word_ok c s' x /\ word_ok c s' y /\ glob c x /\ glob c y /\
  (forall nu, same_tree (view s' nu w) (tcons (view s' nu x) (view s' nu y))) /\
  ((exists a, derefs (mm (hm s)) w (LST a) /\ s' = s) \/
   (exists a, derefs (mm (hm s)) w (REF a) /\ mm (hm s) a = Some (Word (REF a)) /\
      hH s + 2 <= LSSA c /\ s' = write2 c s a (REF (hH s)) (REF (hH s + 1)) /\
      x = REF (hH s) /\ y = REF (hH s + 1))).

Definition var_or_list (s : hst) (w : word) : Prop :=
  exists a, derefs (mm (hm s)) w (LST a) \/ derefs (mm (hm s)) w (REF a).

Lemma open_step chk c s w fuel : state_ok c s -> word_ok c s w -> (chk = false -> var_or_list s w) ->
  runs (open_list chk fuel c s w)
    (rspec (opened c s w) (chk = true /\ no_solution s (fun I => is_cons (I w)))).
Proof.
  intros O Ww Ck. unfold open_list, Get_List.
  assert (H := runs_deref c s w fuel O Ww).
  destruct (deref fuel (mm (hm s)) w) as [u| |]; [|destruct H|exact I].
  destruct H as (D & Wu & Ru). cbn [bind].
  assert (Rw : resp c s (fun I => is_cons (I w))) by (apply (resp1 _ _ is_cons); auto; apply inv_cons).
  assert (NC : (forall a, u <> REF a) -> (forall a, u <> LST a) ->
     runs (if chk then Ret (@No (word * word * hst)) else UB)
       (rspec (opened c s w) (chk = true /\ no_solution s (fun I => is_cons (I w))))).
  { intros N1 N2. destruct chk.
    - cbn. split; auto. intros nu Q. eapply (not_cons (LSSA c) (mm (hm s)) nu u); eauto.
      eapply inv_cons; [|exact Q]. apply view_derefs. exact D.
    - exfalso. destruct (Ck eq_refl) as (a & [Q|Q]); assert (Q' := derefs_det _ _ _ D _ Q);
        [apply (N2 a)|apply (N1 a)]; auto. }
  destruct u as [a|a|a|i|a|a|i]; cbn [bind]; try (apply NC; congruence).
  - destruct Ru as [(b & Qb & Ea)|N]; [injection Qb as <-|destruct (N a eq_refl)].
    unfold room. destruct (Z.leb_spec (hH s + 2) (LSSA c)); cbn [hH]; [|destruct (Z.leb_spec (hH s + 2) (LSSA c)); [lia|exact I]].
    destruct (Z.leb_spec (hH s + 2) (LSSA c)); [|lia].
    cbn [Unify_Variable bind fst snd Global_Push hH]. cbn [runs rspec]. unfold opened.
    destruct (write_facts c s a w (REF (hH s)) (REF (hH s + 1)) O H D Ea Ww (or_introl eq_refl) (or_introl eq_refl))
      as (S1 & W1 & W2 & T).
    split.
    { eapply step_of; [exact S1|exact Rw|apply resp_top| |].
      - intros nu (th & tt & Q). exists th, tt. split; auto.
      - intros nu'. split; [|intros _; exact I]. intros _. do 2 eexists. apply T. }
    split; [exact W1|]. split; [exact W2|].
    split; [intros b Q; injection Q as <-; lia|]. split; [intros b Q; injection Q as <-; lia|].
    split; [exact T|]. right. exists a. repeat split; auto.
  - cbn [room]. destruct (read_facts c s w a O D Wu) as (x & y & Ex & Ey & Wx & Wy & Gx & Gy & T).
    cbn [Unify_Variable bind fst snd]. rewrite (runs_rd c s a x O Ex). cbn [bind fst snd Unify_Variable].
    rewrite (runs_rd c s (a + 1) y O Ey). cbn [bind fst snd runs rspec]. unfold opened.
    assert (T' : forall nu, same_tree (view s nu w) (tcons (view s nu (Do_Copy_Of_Word x)) (view s nu (Do_Copy_Of_Word y)))).
    { intros nu. eapply same_tree_trans; [apply T|]. apply same_tcons; apply same_tree_sym; eapply copy_lab; eauto. }
    split; [|split; [apply copy_wf; exact Wx|split; [apply copy_wf; exact Wy|split; [|split; [|split; [exact T'|left; exists a; auto]]]]]].
    + apply step_refl; auto; [apply resp_top|]. intros nu. split; [|intros _; exact I].
      intros _. do 2 eexists. apply T.
    + eapply copy_glob; eauto.
    + eapply copy_glob; eauto.
Qed.

(** ** put_list *)
Lemma Unify_same_var c st u v b fuel r t : derefs (mm st) u (REF b) -> derefs (mm st) v (REF b) ->
  Unify false fuel c st u v = Ret (r, t) -> r = USucc /\ t = st.
Proof.
  intros Du Dv. destruct fuel as [|fuel]; [discriminate|]. cbn [Unify].
  destruct (deref fuel (mm st) u) as [u'| |] eqn:E1; try discriminate. cbn [bind].
  destruct (deref fuel (mm st) v) as [v'| |] eqn:E2; try discriminate. cbn [bind].
  apply deref_derefs in E1, E2.
  rewrite (derefs_det _ _ _ E1 _ Du), (derefs_det _ _ _ E2 _ Dv).
  rewrite Z.ltb_irrefl. intros Q. injection Q as <- <-. auto.
Qed.

Definition put_done (c : cfg) (fuel : nat) (s : hst) (w x : word) (r : word * hst) : Prop :=
  let '(y, s') := r in
  step c s s' (fun I => starts (I x) (I w)) top /\
  word_ok c s' y /\ glob c y /\
  (forall nu, same_tree (view s' nu w) (tcons (view s' nu x) (view s' nu y))) /\
  ((exists a, derefs (mm (hm s)) w (REF a) /\ mm (hm s) a = Some (Word (REF a)) /\
      hH s + 2 <= LSSA c /\ s' = write2 c s a x (REF (hH s + 1)) /\ y = REF (hH s + 1)) \/
   (exists a v0 v1 t, derefs (mm (hm s)) w (LST a) /\ mm (hm s) a = Some (Word v0) /\
      Unify false fuel c (hm s) x v0 = Ret (USucc, t) /\ s' = Hst t (hH s) /\
      mm t (a + 1) = Some (Word v1) /\ y = Do_Copy_Of_Word v1)).

(** what makes the unchecked use of put_list safe *)
Definition put_safe (s : hst) (w x : word) : Prop :=
  (exists a, derefs (mm (hm s)) w (REF a)) \/
  (exists a v0 b, derefs (mm (hm s)) w (LST a) /\ mm (hm s) a = Some (Word v0) /\
     derefs (mm (hm s)) v0 (REF b) /\ derefs (mm (hm s)) x (REF b)).

Lemma put_step chk c s w x fuel : state_ok c s -> word_ok c s w -> word_ok c s x -> glob c x ->
  (chk = false -> put_safe s w x) ->
  runs (put_list chk fuel c s w x)
    (rspec (put_done c fuel s w x) (chk = true /\ no_solution s (fun I => starts (I x) (I w)))).
Proof.
  intros O Ww Wx Gx Ck. unfold put_list, Get_List.
  assert (H := runs_deref c s w fuel O Ww).
  destruct (deref fuel (mm (hm s)) w) as [u| |]; [|destruct H|exact I].
  destruct H as (D & Wu & Ru). cbn [bind].
  assert (Rw : resp c s (fun I => starts (I x) (I w))) by (apply (resp2 _ _ starts); auto; apply inv_starts).
  assert (NC : (forall a, u <> REF a) -> (forall a, u <> LST a) ->
     runs (if chk then Ret (@No (word * hst)) else UB)
       (rspec (put_done c fuel s w x) (chk = true /\ no_solution s (fun I => starts (I x) (I w))))).
  { intros N1 N2. destruct chk.
    - cbn. split; auto. intros nu [tt Q]. eapply (not_cons (LSSA c) (mm (hm s)) nu u); eauto.
      exists (view s nu x), tt. eapply same_tree_trans; [|exact Q]. apply same_tree_sym, view_derefs. exact D.
    - exfalso. destruct (Ck eq_refl) as [(a & Q)|(a & v0 & b & Q & _)]; assert (Q' := derefs_det _ _ _ D _ Q);
        [apply (N1 a)|apply (N2 a)]; auto. }
  destruct u as [a|a|a|i|a|a|i]; cbn [bind]; try (apply NC; congruence).
  - destruct Ru as [(b & Qb & Ea)|N]; [injection Qb as <-|destruct (N a eq_refl)].
    unfold room. cbn [hH]. destruct (Z.leb_spec (hH s + 2) (LSSA c)) as [Hr|]; [|exact I].
    cbn [Unify_Value Unify_Variable bind fst snd Global_Push hH].
    cbn [negb]. cbn [runs rspec]. unfold put_done.
    destruct (write_facts c s a w x (REF (hH s + 1)) O Hr D Ea Ww (or_intror (conj Wx Gx)) (or_introl eq_refl))
      as (S1 & W1 & W2 & T).
    split.
    { eapply step_of; [exact S1|exact Rw|apply resp_top| |].
      - intros nu (tt & Q). exists (view s nu x), tt. split; auto. split; [right; apply same_tree_refl|left; reflexivity].
      - intros nu'. split; [|intros _; exact I]. intros _. eexists. apply T. }
    split; [exact W2|]. split; [intros b Q; injection Q as <-; lia|].
    split; [exact T|]. left. exists a. repeat split; auto.
  - cbn [room]. destruct (read_facts c s w a O D Wu) as (v0 & v1 & Ex & Ey & Wv0 & Wv1 & Gv0 & Gv1 & T).
    cbn [Unify_Value]. rewrite (runs_rd c s a v0 O Ex). cbn [bind].
    assert (US := unify_step c s x v0 fuel O Wx Wv0). unfold unify in US.
    destruct (Unify false fuel c (hm s) x v0) as [[r t]| |] eqn:EU; [|destruct US|exact I].
    cbn [bind fst snd] in *.
    destruct r; [| |exact I].
    + cbn [runs rspec] in US. set (s1 := Hst t (hH s)) in *.
      assert (O1 := st_ok _ _ _ _ _ US). assert (Wl1 := st_words _ _ _ _ _ US _ Wu).
      assert (DL : derefs (mm (hm s1)) (LST a) (LST a)) by (apply drf_other; discriminate).
      destruct (read_facts c s1 (LST a) a O1 DL Wl1)
        as (x1 & y1 & Ex1 & Ey1 & Wx1 & Wy1 & Gx1 & Gy1 & T1).
      cbn [Unify_Variable]. rewrite (runs_rd c s1 (a + 1) y1 O1 Ey1). cbn [bind fst snd runs rspec].
      unfold put_done.
      assert (T' : forall nu, same_tree (view s1 nu w) (tcons (view s1 nu x) (view s1 nu (Do_Copy_Of_Word y1)))).
      { intros nu. destruct (st_down _ _ _ _ _ US nu) as [nu0 A].
        assert (Sx : same_tree (view s1 nu x) (view s1 nu v0)) by (apply (st_iff _ _ _ _ _ US nu); exact I).
        assert (Sw : same_tree (view s1 nu w) (view s1 nu (LST a))).
        { eapply same_tree_trans; [apply A; exact Ww|]. eapply same_tree_trans; [apply view_derefs; exact D|].
          apply same_tree_sym, A. exact Wu. }
        assert (S0 : same_tree (view s1 nu w) (tcons (view s1 nu v0) (view s1 nu v1))).
        { eapply same_tree_trans; [apply A; exact Ww|]. eapply same_tree_trans; [apply T|].
          apply same_tcons; apply same_tree_sym, A; auto. }
        assert (S2 := T1 nu).
        destruct (tcons_inv _ _ _ _ (same_tree_trans _ _ _ (same_tree_sym _ _ S0) (same_tree_trans _ _ _ Sw S2))) as [Q1 Q2].
        eapply same_tree_trans; [exact S0|]. apply same_tcons; [apply same_tree_sym; exact Sx|].
        eapply same_tree_trans; [exact Q2|]. apply same_tree_sym. eapply copy_lab; eauto. }
      split.
      { eapply step_of; [exact US|exact Rw|apply resp_top| |].
        - intros nu [tt Q]. destruct (tcons_inv _ _ _ _ (same_tree_trans _ _ _ (same_tree_sym _ _ Q) (T nu))) as [Q1 _]. exact Q1.
        - intros nu'. split; [|intros _; exact I]. intros _. eexists. apply T'. }
      split; [apply copy_wf; exact Wy1|]. split; [eapply copy_glob; eauto|]. split; [exact T'|].
      right. exists a, v0, y1, t. repeat split; auto.
    + destruct chk; cbn [negb].
      * cbn. split; auto. cbn in US. intros nu [tt Q]. apply (US nu).
        destruct (tcons_inv _ _ _ _ (same_tree_trans _ _ _ (same_tree_sym _ _ Q) (T nu))) as [Q1 _]. exact Q1.
      * exfalso. destruct (Ck eq_refl) as [(b & Q)|(a' & v0' & b & Q & E0 & D0 & Dx)]; assert (Q' := derefs_det _ _ _ D _ Q).
        -- discriminate.
        -- injection Q' as <-. assert (v0' = v0) by congruence. subst v0'.
           destruct (Unify_same_var c (hm s) x v0 b fuel _ _ Dx D0 EU). discriminate.
Qed.

(** ** a new cell *)
Lemma cons_cell_step c s x y : state_ok c s -> word_ok c s x -> word_ok c s y -> glob c x -> glob c y ->
  runs (cons_cell c s x y) (rspec (fun r => let '(w, s') := r in
    (forall E, resp c s E -> step c s s' E E) /\ word_ok c s' w /\ glob c w /\ plain w /\
    (forall nu, same_tree (view s' nu w) (tcons (view s' nu x) (view s' nu y))) /\
    (forall a v, mm (hm s) a = Some v -> mm (hm s') a = Some v)) False).
Proof.
  intros O Wx Wy Gx Gy. unfold cons_cell.
  destruct (Z.leb_spec (hH s + 2) (LSSA c)) as [Hr|]; [|exact I].
  assert (AF := alloc_facts c s x y O Hr (or_intror (conj Wx Gx)) (or_intror (conj Wy Gy))). cbn zeta in AF.
  destruct AF as (O1 & K1 & Wu & Wv & Wl & A1 & T1 & U1). cbn [runs rspec]. fold (alloc2 s x y).
  split; [|split; [exact Wl|split; [discriminate|split; [exact I|split; [exact T1|]]]]].
  - intros E RE. split; auto.
    + intros nu. exists nu. apply A1.
    + intros nu. reflexivity.
    + intros nu _. exists nu. apply agree_sym, A1.
    + eapply resp_words; eauto.
  - intros a v Ea. unfold alloc2, Global_Push. cbn [hm mm hH]. destruct O as (_ & _ & F).
    rewrite !store_other; auto; intros ->; rewrite F in Ea; try discriminate; lia.
Qed.

(** ** Pl_Get_Integer *)
Lemma get_integer_step c s n w fuel : state_ok c s -> word_ok c s w ->
  runs (Get_Integer fuel c s n w)
    (rspec (fun s' => step c s s' (fun I => same_tree (I w) (tint n)) top)
       (no_solution s (fun I => same_tree (I w) (tint n)))).
Proof.
  intros O Ww. unfold Get_Integer.
  assert (H := runs_deref c s w fuel O Ww).
  destruct (deref fuel (mm (hm s)) w) as [u| |]; [|destruct H|exact I].
  destruct H as (D & Wu & Ru). cbn [bind].
  assert (Rw : resp c s (fun I => same_tree (I w) (tint n))) by (apply (resp1 _ _ (fun t => same_tree t (tint n))); auto; apply inv_int).
  destruct Ru as [(a & -> & Ea)|Nu].
  - cbn. assert (S1 := bind_step c s a (INT n) O Ea I I).
    eapply step_of; [exact S1|exact Rw|apply resp_top| |].
    + cbn. intros nu Q. eapply same_tree_trans; [apply same_tree_sym, view_derefs; exact D|].
      eapply same_tree_trans; [exact Q|]. apply same_tree_sym, lab_int_tree.
    + intros nu'. split; [|intros _; exact I]. intros _.
      destruct (st_down _ _ _ _ _ S1 nu') as [nu A].
      eapply same_tree_trans; [apply A; auto|]. eapply same_tree_trans; [apply view_derefs; exact D|].
      eapply same_tree_trans; [apply same_tree_sym, A; exists (REF a); exact Ea|].
      eapply same_tree_trans; [apply (proj1 (st_iff _ _ _ _ _ S1 nu')); exact I|]. apply lab_int_tree.
  - assert (G : runs (if word_eqb u (INT n) then Ret (Ok s) else Ret (@No hst))
       (rspec (fun s' => step c s s' (fun I => same_tree (I w) (tint n)) top)
       (no_solution s (fun I => same_tree (I w) (tint n))))).
    { destruct (word_eqb u (INT n)) eqn:Q.
      + apply word_eqb_eq in Q as ->. cbn. apply step_refl; auto; [apply resp_top|].
        intros nu. split; [|intros _; exact I]. intros _.
        eapply same_tree_trans; [apply view_derefs; exact D|]. apply lab_int_tree.
      + cbn. intros nu Sm. apply word_eqb_neq in Q.
        apply (not_int (mm (hm s)) nu u n Nu Q).
        eapply same_tree_trans; [apply same_tree_sym, view_derefs; exact D|exact Sm]. }
    destruct u; auto; try exact I. destruct (Nu a eq_refl).
Qed.

(** ** Pl_List_Length *)
Lemma length_spec nil c s fuel : state_ok c s -> forall k n w, word_ok c s w -> 0 <= n ->
  n + Z.of_nat k <= 2147483647 ->
  runs (List_Length nil k fuel (mm (hm s)) n w) (fun r => -2 <= r < 2147483647 /\
    (0 <= r -> n <= r /\ forall nu, exists xs, length xs = Z.to_nat (r - n) /\
       same_tree (view s nu w) (tlist xs (tatom nil)))).
Proof.
  intros O. induction k as [|k IH]; intros n w Ww Hn Hk; [exact I|]. cbn [List_Length].
  eapply runs_bind; [apply (runs_deref c s w fuel O Ww)|]. intros u (D & Wu & Ru).
  destruct u as [a|a|a|i|a|a|i]; try (cbn; split; lia).
  - unfold incr. destruct (Z.ltb_spec n 2147483647); [|lia]. cbn [bind].
    destruct (read_facts c s w a O D Wu) as (x & y & Ex & Ey & Wx & Wy & Gx & Gy & T).
    rewrite (runs_rd c s (a + 1) y O Ey). cbn [bind].
    eapply runs_imp; [apply IH; auto; lia|]. cbn beta. intros r [R1 R2]. split; auto. intros R0.
    destruct (R2 R0) as [R3 R4]. split; [lia|]. intros nu. destruct (R4 nu) as (xs & E1 & E2).
    exists (view s nu x :: xs). split; [cbn [length]; lia|].
    eapply same_tree_trans; [apply T|]. cbn. apply same_tcons; [apply same_tree_refl|exact E2].
  - destruct (Z.eqb_spec i nil) as [->|]; cbn; [|split; lia]. split; [lia|]. intros _. split; [lia|].
    intros nu. exists []. split; [cbn [length]; lia|]. eapply same_tree_trans; [apply view_derefs; exact D|].
    apply lab_atom.
Qed.
