(** Proofs about the list predicates. *)
Require Import ZArith List Bool Lia.
Require Import Verif.Term_Model Verif.Heap_Model Verif.Heap_Proofs Verif.Unify_Model Verif.Unify_Spec
  Verif.Unify_Proofs Verif.Unify_Proofs2 Verif.Binding_Model Verif.Binding_Proofs Verif.Copy_Model
  Verif.List_Model Verif.List_Spec.
Import ListNotations.
Open Scope Z_scope.

Local Notation word_ok c s w := (wf_word (LSSA c) (mm (hm s)) w).

(** ** Goals and the states they lead to *)
Definition goal := (word -> tree) -> Prop.
Definition resp (c : cfg) (s : hst) (E : goal) : Prop := forall I J, agree c s I J -> E I -> E J.

Lemma agree_refl c s I : agree c s I I. Proof. intros w _. apply same_tree_refl. Qed.
Lemma agree_sym c s I J : agree c s I J -> agree c s J I.
Proof. intros A w W. apply same_tree_sym; auto. Qed.
Lemma agree_trans c s I J K : agree c s I J -> agree c s J K -> agree c s I K.
Proof. intros A B w W. eapply same_tree_trans; eauto. Qed.

(** the move from [s] to [s'] turns the goal [E] into the goal [E'] *)
Record step (c : cfg) (s s' : hst) (E E' : goal) : Prop := {
  st_ok : state_ok c s';
  st_words : forall w, word_ok c s w -> word_ok c s' w;
  st_down : forall nu', exists nu, agree c s (view s' nu') (view s nu);
  st_iff : forall nu', E' (view s' nu') <-> E (view s' nu');
  st_up : forall nu, E (view s nu) -> exists nu', agree c s (view s nu) (view s' nu');
  st_resp : resp c s E;
  st_resp' : resp c s' E'
}.
Definition top : goal := fun _ => True.

Lemma resp_top c s : resp c s top. Proof. intros X Y _ _. exact I. Qed.
Lemma agree_words c s s' I J : (forall w, word_ok c s w -> word_ok c s' w) ->
  agree c s' I J -> agree c s I J.
Proof. intros H A w W. auto. Qed.
Lemma resp_words c s s' E : (forall w, word_ok c s w -> word_ok c s' w) -> resp c s E -> resp c s' E.
Proof. intros H Rs I J A. apply Rs. eapply agree_words; eauto. Qed.

Lemma step_trans c s s1 s2 E E1 E2 : step c s s1 E E1 -> step c s1 s2 E1 E2 -> step c s s2 E E2.
Proof.
  intros [O1 W1 D1 I1 U1 R1 R1'] [O2 W2 D2 I2 U2 R2 R2']. split; auto.
  - intros nu2. destruct (D2 nu2) as [nu1 A2]. destruct (D1 nu1) as [nu A1]. exists nu.
    eapply agree_trans; [eapply agree_words; eauto|auto].
  - intros nu2. rewrite I2. destruct (D2 nu2) as [nu1 A2].
    assert (K : E1 (view s2 nu2) <-> E1 (view s1 nu1)).
    { split; apply R2; auto. now apply agree_sym. }
    rewrite K, I1. assert (A : agree c s (view s2 nu2) (view s1 nu1)) by (eapply agree_words; eauto).
    split; apply R1; auto. now apply agree_sym.
  - intros nu H. destruct (U1 nu H) as [nu1 A1]. destruct (U2 nu1) as [nu2 A2].
    + apply I1. eapply R1; eauto.
    + exists nu2. eapply agree_trans; [exact A1|]. eapply agree_words; eauto.
Qed.

Lemma step_none c s s' E E' : step c s s' E E' -> no_solution s' E' -> no_solution s E.
Proof.
  intros [O1 W1 D1 I1 U1 R1 R1'] N nu H. destruct (U1 nu H) as [nu' A]. apply (N nu'), I1.
  eapply R1; eauto.
Qed.

Lemma step_goal c s s' E : step c s s' E top <-> answers_goal c s s' E /\ resp c s E.
Proof.
  split.
  - intros [O1 W1 D1 I1 U1 R1 R1']. split; auto. repeat split; auto; try apply O1.
    apply I1. exact I.
  - intros [(O1 & W1 & D & U) Rs]. split; auto.
    + intros nu'. apply D.
    + intros nu'. split; [|intros _; exact I]. intros _. apply D.
    + apply resp_top.
Qed.
Lemma step_answers c s s' E E' : step c s s' E E' -> (forall nu, E' (view s' nu)) ->
  answers_goal c s s' E.
Proof.
  intros [O1 W1 D1 I1 U1 R1 R1'] H. repeat split; auto; try apply O1. now apply I1.
Qed.

(** a goal that implies what the step imposes *)
Lemma step_of c s s' C E E' : step c s s' C top -> resp c s E -> resp c s' E' ->
  (forall nu, E (view s nu) -> C (view s nu)) ->
  (forall nu', E' (view s' nu') <-> E (view s' nu')) -> step c s s' E E'.
Proof.
  intros [O1 W1 D1 I1 U1 R1 R1'] Rs Rs' H K. split; auto.
Qed.
Lemma step_refl c s E E' : state_ok c s -> resp c s E -> resp c s E' ->
  (forall nu, E' (view s nu) <-> E (view s nu)) -> step c s s E E'.
Proof.
  intros O1 R1 R2 H. split; auto.
  - intros nu. exists nu. apply agree_refl.
  - intros nu _. exists nu. apply agree_refl.
Qed.
Lemma no_sol_iff s (E E' : goal) : (forall nu, E (view s nu) -> E' (view s nu)) ->
  no_solution s E' -> no_solution s E.
Proof. intros H N nu K. exact (N nu (H nu K)). Qed.

(** ** Memories equal at each address *)
Lemma lab_ptw m m' nu w p l : (forall x, m x = m' x) -> lab m nu w p l -> lab m' nu w p l.
Proof.
  intros Q. induction 1 as [x p l E N1|x y p l E N1 D IH|n|i|x d E|x|x|x i y p l Hi E D IH|x f n E|x f n i y p l E Hi E2 D IH];
    rewrite ?Q in *; try solve [econstructor; eauto].
Qed.
Lemma lab_ptw_iff m m' nu w : (forall x, m x = m' x) -> same_tree (lab m nu w) (lab m' nu w).
Proof. intros Q p l. split; apply lab_ptw; auto. Qed.
Lemma words_ptw m m' a n : (forall x, m x = m' x) -> words_at m a n -> words_at m' a n.
Proof. intros Q W i Hi. rewrite <- Q. auto. Qed.
Lemma wf_word_ptw L m m' w : (forall x, m x = m' x) -> wf_word L m w -> wf_word L m' w.
Proof.
  intros Q. destruct w; cbn; auto.
  - intros [w' E]. exists w'. now rewrite <- Q.
  - intros [A B]. split; auto. eapply words_ptw; eauto.
  - intros (f & n & A1 & A2 & A3 & A4 & A5). exists f, n. rewrite <- (Q a).
    split; [exact A1|]. split; [exact A2|]. split; [exact A3|]. split; [exact A4|]. eapply words_ptw; eauto.
  - intros (d & E & A). exists d. now rewrite <- (Q a).
  - now rewrite <- (Q a).
Qed.
Lemma derefs_ptw m m' w u : (forall x, m x = m' x) -> derefs m w u -> derefs m' w u.
Proof.
  intros Q. induction 1; rewrite ?Q in *; econstructor; eauto.
Qed.
Lemma wf_ptw L m m' : (forall x, m x = m' x) -> wf L m -> wf L m'.
Proof.
  intros Q [A B C D]. split; intros a w; rewrite <- Q; intros E.
  - eauto.
  - eapply wf_word_ptw; eauto.
  - eauto.
  - destruct (D a w E) as [u Du]. exists u. eapply derefs_ptw; eauto.
Qed.
Lemma step_ptw c s s1 s2 E : (forall x, mm (hm s1) x = mm (hm s2) x) -> hH s1 = hH s2 ->
  step c s s1 E top -> step c s s2 E top.
Proof.
  intros Q QH S1.
  assert (V : forall nu, agree c s (view s1 nu) (view s2 nu)).
  { intros nu w _. now apply lab_ptw_iff. }
  destruct S1 as [(O1 & O2 & O3) W1 D1 I1 U1 R1 R1']. split; auto.
  - split; [eapply wf_ptw; eauto|]. rewrite <- QH. split; auto. intros a Ha. rewrite <- Q. auto.
  - intros w Ww. eapply wf_word_ptw; eauto.
  - intros nu'. destruct (D1 nu') as [nu A]. exists nu. eapply agree_trans; [|exact A].
    apply agree_sym, V.
  - intros nu'. split; [|intros _; exact I]. intros _. eapply R1; [apply V|]. apply I1. exact I.
  - intros nu H. destruct (U1 nu H) as [nu' A]. exists nu'. eapply agree_trans; eauto.
  - apply resp_top.
Qed.

(** ** Values of variables that do not occur *)
Lemma lab_nu m nu nu' w : (forall a, m a = Some (Word (REF a)) -> same_tree (nu a) (nu' a)) ->
  same_tree (lab m nu w) (lab m nu' w).
Proof.
  intros H. assert (K : forall nu nu', (forall a, m a = Some (Word (REF a)) -> same_tree (nu a) (nu' a)) ->
    forall p l, lab m nu w p l -> lab m nu' w p l).
  { clear. intros nu nu' H p l.
    induction 1 as [x p l E N1|x y p l E N1 D IH|n|i|x d E|x|x|x i y p l Hi E D IH|x f n E|x f n i y p l E Hi E2 D IH];
      try solve [econstructor; eauto].
    apply lab_var; auto. apply (H x E); auto. }
  intros p l. split; apply K; auto. intros a E. apply same_tree_sym; auto.
Qed.

(** ** Trees of lists *)
Lemma same_tcons h t h' t' : same_tree h h' -> same_tree t t' -> same_tree (tcons h t) (tcons h' t').
Proof.
  intros A B p l. destruct p as [|[|[|n]] p]; cbn; try tauto; [apply A|apply B].
Qed.
Lemma tcons_inv h t h' t' : same_tree (tcons h t) (tcons h' t') -> same_tree h h' /\ same_tree t t'.
Proof.
  intros A. split; intros p l; [exact (A (0%nat :: p) l)|exact (A (1%nat :: p) l)].
Qed.
Lemma tcons_not_atom h t i : ~ same_tree (tcons h t) (tatom i).
Proof. intros A. destruct (proj1 (A [] (LFun ATOM_DOT 2)) eq_refl) as [_ Q]. discriminate. Qed.
Lemma tcons_not_int h t i : ~ same_tree (tcons h t) (tint i).
Proof. intros A. destruct (proj1 (A [] (LFun ATOM_DOT 2)) eq_refl) as [_ Q]. discriminate. Qed.
Lemma tint_not_atom n i : ~ same_tree (tint n) (tatom i).
Proof. intros A. destruct (proj1 (A [] (LInt n)) (conj eq_refl eq_refl)) as [_ Q]. discriminate. Qed.
Lemma tint_inj n i : same_tree (tint n) (tint i) -> n = i.
Proof. intros A. destruct (proj1 (A [] (LInt n)) (conj eq_refl eq_refl)) as [_ Q]. congruence. Qed.

Lemma lab_lst m nu a x y : m a = Some (Word x) -> m (a + 1) = Some (Word y) ->
  same_tree (lab m nu (LST a)) (tcons (lab m nu x) (lab m nu y)).
Proof.
  intros E0 E1 p l. destruct p as [|i p].
  - cbn. split; [now inversion 1|intros ->; constructor].
  - split.
    + intros H. inversion H; subst. assert (Q : i = 0%nat \/ i = 1%nat) by lia.
      destruct Q as [->| ->]; cbn in *.
      * rewrite Z.add_0_r in *. congruence.
      * congruence.
    + destruct i as [|[|i]]; cbn; [intros H|intros H|tauto].
      * eapply lab_lst_arg; [lia| |exact H]. now rewrite Z.add_0_r.
      * eapply lab_lst_arg; [lia| |exact H]. exact E1.
Qed.
Lemma lab_atom m nu i : same_tree (lab m nu (ATM i)) (tatom i).
Proof.
  intros p l. split; [inversion 1; subst; split; auto|intros [-> ->]; constructor].
Qed.
Lemma lab_int_tree m nu i : same_tree (lab m nu (INT i)) (tint i).
Proof.
  intros p l. split; [inversion 1; subst; split; auto|intros [-> ->]; constructor].
Qed.

(** the tag of a dereferenced word decides the root *)
Definition is_cons (t : tree) : Prop := exists h u, same_tree t (tcons h u).
Lemma cons_root t : is_cons t -> t [] (LFun ATOM_DOT 2).
Proof. intros (h & u & A). apply A. reflexivity. Qed.
Lemma atom_root t i : same_tree t (tatom i) -> t [] (LAtm i).
Proof. intros A. apply A. split; auto. Qed.
Lemma int_root t i : same_tree t (tint i) -> t [] (LInt i).
Proof. intros A. apply A. split; auto. Qed.
Lemma not_cons L m nu w : wf_word L m w -> (forall a, w <> REF a) -> (forall a, w <> LST a) ->
  ~ is_cons (lab m nu w).
Proof.
  intros Ww N1 N2 H. apply cons_root in H.
  destruct w; try (eapply N1; reflexivity); try (eapply N2; reflexivity); inversion H; subst.
  destruct Ww as (f & n & E & _ & F & _). apply F. split; congruence.
Qed.
Lemma not_atom m nu w i : (forall a, w <> REF a) -> w <> ATM i -> ~ same_tree (lab m nu w) (tatom i).
Proof.
  intros N1 N2 H. apply atom_root in H.
  destruct w; try (eapply N1; reflexivity); inversion H; subst; congruence.
Qed.
Lemma not_int m nu w i : (forall a, w <> REF a) -> w <> INT i -> ~ same_tree (lab m nu w) (tint i).
Proof.
  intros N1 N2 H. apply int_root in H.
  destruct w; try (eapply N1; reflexivity); inversion H; subst; congruence.
Qed.
