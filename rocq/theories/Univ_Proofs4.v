(** =../2 *)
Require Import ZArith List Bool Lia PeanoNat Floats.SpecFloat.
Require Import Verif.Term_Model Verif.Term_Proofs Verif.Heap_Model Verif.Heap_Proofs.
Require Import Verif.Unify_Model Verif.Unify_Spec Verif.Unify_Proofs Verif.Unify_Proofs2.
Require Import Verif.Binding_Model Verif.Binding_Spec Verif.Binding_Proofs Verif.Copy_Model.
Require Import Verif.List_Model Verif.List_Spec Verif.List_Proofs Verif.List_Steps Verif.List_Append.
Require Import Verif.Univ_Model Verif.Univ_Spec Verif.Univ_Proofs Verif.Univ_Proofs2 Verif.Univ_Proofs3.
Import ListNotations.
Open Scope Z_scope.
Local Notation word_ok c s w := (wf_word (LSSA c) (mm (hm s)) w).
Local Notation mem_of s := (mm (hm s)).

(** ** Lists of trees *)
Lemma same_tlist2 xs ys t : Forall2 same_tree xs ys -> same_tree (tlist xs t) (tlist ys t).
Proof.
  induction 1 as [|x y xs ys A F IH]; cbn [tlist fold_right]; [exact (same_tree_refl _)|].
  apply same_tcons; auto.
Qed.
Lemma tlist_inv nil : forall xs ys, same_tree (tlist xs (tatom nil)) (tlist ys (tatom nil)) -> Forall2 same_tree xs ys.
Proof.
  induction xs as [|x xs IH]; intros [|y ys] A; [constructor| | |].
  - exfalso. exact (tcons_not_atom _ _ _ (same_tree_sym _ _ A)).
  - exfalso. exact (tcons_not_atom _ _ _ A).
  - apply tcons_inv in A as [A1 A2]. constructor; auto.
Qed.

(** a list without end [nil] *)
Definition not_list (nil : Z) (s : hst) (w : word) : Prop :=
  forall nu ts, ~ same_tree (view s nu w) (tlist ts (tatom nil)).
Lemma not_list_leaf nil c s w u : word_ok c s u -> derefs (mem_of s) w u -> (forall a, u <> REF a) -> (forall a, u <> LST a) -> u <> ATM nil ->
  not_list nil s w.
Proof.
  intros Wu D N1 N2 N3 nu ts Q.
  assert (A : same_tree (view s nu u) (tlist ts (tatom nil))) by (eapply same_tree_trans; [apply same_tree_sym, view_derefs; exact D|exact Q]).
  destruct ts as [|x ts]; cbn [tlist fold_right] in A.
  - exact (not_atom _ nu u nil N1 N3 A).
  - apply (not_cons (LSSA c) (mem_of s) nu u Wu N1 N2). do 2 eexists. exact A.
Qed.
Lemma not_list_cons nil s w x y : (forall nu, same_tree (view s nu w) (tcons (view s nu x) (view s nu y))) ->
  not_list nil s y -> not_list nil s w.
Proof.
  intros T N nu ts Q. destruct ts as [|u ts].
  - eapply tcons_not_atom. eapply same_tree_trans; [apply same_tree_sym, (T nu)|exact Q].
  - apply (N nu ts). assert (A : same_tree (tcons (view s nu x) (view s nu y)) (tcons u (tlist ts (tatom nil)))).
    { eapply same_tree_trans; [apply same_tree_sym, (T nu)|exact Q]. }
    now apply tcons_inv in A.
Qed.

Lemma glob_derefs c m w u : wf (LSSA c) m -> derefs m w u -> glob c w -> glob c u.
Proof.
  intros W D. induction D as [a Ea|a w u Ea N D IH|w N]; intros G; auto.
  apply IH. intros b ->. destruct (wf_ref _ _ W _ _ Ea) as [Q|Q]; auto. specialize (G a eq_refl). lia.
Qed.
Lemma copy_view c s w nu : word_ok c s w -> same_tree (view s nu (Do_Copy_Of_Word w)) (view s nu w).
Proof.
  intros Ww. destruct w; try exact (same_tree_refl _). destruct Ww as [E _]. cbn [Do_Copy_Of_Word].
  apply lab_cell. exact E.
Qed.

(** ** From the term to the list *)
Lemma check_list_ok nil c s k fuel : forall w, state_ok c s -> word_ok c s w ->
  runs (List_Or_Partial_List nil k fuel (mem_of s) w) (fun b => b = false -> not_list nil s w).
Proof.
  induction k as [|k IH]; intros w O Ww; [exact I|]. cbn [List_Or_Partial_List].
  eapply runs_bind; [apply (runs_deref c s w fuel O Ww)|]. intros u (D & Wu & Ru).
  assert (K : (forall a, u <> REF a) -> (forall a, u <> LST a) -> u <> ATM nil -> not_list nil s w).
  { intros N1 N2 N3. eapply not_list_leaf; eauto. }
  destruct u as [a|a|a|i|a|a|i]; try (cbn [runs]; intros _; apply K; discriminate).
  - cbn. discriminate.
  - destruct (read_facts c s w a O D Wu) as (x & y & Ex & Ey & Wx & Wy & Gx & Gy & T).
    rewrite (runs_rd c s (a + 1) y O Ey). cbn [bind]. eapply runs_imp; [apply (IH y O Wy)|].
    intros b Q E. apply (not_list_cons nil s w x y T). auto.
  - cbn [runs]. intros Q. apply Z.eqb_neq in Q. apply K; try discriminate. congruence.
Qed.

Lemma resp_list c s l ws t : word_ok c s l -> (forall w, In w ws -> word_ok c s w) ->
  resp c s (fun I => same_tree (I l) (tlist (map I ws) t)).
Proof.
  intros Wl Ww X Y A Q. eapply same_tree_trans; [apply same_tree_sym, A; auto|]. eapply same_tree_trans; [exact Q|].
  apply same_tlist2. clear Q. induction ws as [|w ws IH]; cbn [map]; constructor.
  - apply A, Ww. now left.
  - apply IH. intros u Hu. apply Ww. now right.
Qed.
Lemma refs_ok c s a n w : words_at (mem_of s) a n -> In w (refs a n) -> word_ok c s w.
Proof.
  intros Ws Hw. apply In_nth_error in Hw as [i Hi].
  assert (L : (i < n)%nat) by (rewrite <- (refs_length a n); apply nth_error_Some; congruence).
  rewrite refs_nth in Hi by auto. injection Hi as <-. eapply word_ref; eauto.
Qed.

Lemma univ_list_ok nil n fuel c : forall s l car a, state_ok c s -> word_ok c s l -> word_ok c s car -> glob c car ->
  words_at (mem_of s) a n -> a + Z.of_nat n <= LSSA c ->
  runs (univ_list nil n fuel c s l car a)
    (rspec (fun s' => step c s s' (fun I => same_tree (I l) (tlist (map I (car :: refs a n)) (tatom nil))) top)
       (no_solution s (fun I => same_tree (I l) (tlist (map I (car :: refs a n)) (tatom nil))))).
Proof.
  induction n as [|n IH]; intros s l car a O Wl Wc Gc Ws Ha.
  - cbn [univ_list]. eapply runs_bind; [apply (put_step true c s l car fuel O Wl Wc Gc ltac:(discriminate))|].
    assert (Rs : resp c s (fun I => same_tree (I l) (tlist (map I (car :: refs a 0)) (tatom nil)))).
    { apply resp_list; auto. intros w [<-|[]]; auto. }
    change (refs a 0) with (@List.nil word) in *.
    intros [[y s1]| | | |]; cbn [rspec lbind runs]; auto.
    + intros (S1 & Wy & Gy & T & _). assert (O1 := st_ok _ _ _ _ _ S1).
      assert (S2 : step c s s1 (fun I => same_tree (I l) (tlist (map I [car]) (tatom nil))) (fun I => same_tree (I y) (tatom nil))).
      { eapply step_of; [exact S1|exact Rs| | |].
        - apply (resp1 _ _ (fun x => same_tree x (tatom nil))); auto. apply inv_atom.
        - intros nu Q. eexists. exact Q.
        - intros nu. cbn [map tlist fold_right]. split; intros Q.
          + eapply same_tree_trans; [apply T|]. apply same_tcons; [exact (same_tree_refl _)|exact Q].
          + assert (B : same_tree (tcons (view s1 nu car) (view s1 nu y)) (tcons (view s1 nu car) (tatom nil))).
            { eapply same_tree_trans; [apply same_tree_sym, T|exact Q]. }
            now apply tcons_inv in B. }
      eapply runs_imp; [apply (get_nil_step nil c s1 y fuel O1 Wy)|].
      intros [s2| | | |]; cbn [rspec]; auto.
      * intros S3. eapply step_trans; eauto.
      * intros [N _]. eapply step_none; eauto.
    + intros [_ N] nu Q. apply (N nu). eexists. exact Q.
  - cbn [univ_list]. eapply runs_bind; [apply (put_step true c s l car fuel O Wl Wc Gc ltac:(discriminate))|].
    assert (Rs : resp c s (fun I => same_tree (I l) (tlist (map I (car :: refs a (S n))) (tatom nil)))).
    { apply resp_list; auto. intros w [<-|Hw]; auto. eapply refs_ok; eauto. }
    rewrite refs_S in *.
    intros [[y s1]| | | |]; cbn [rspec lbind runs]; auto.
    + intros (S1 & Wy & Gy & T & _). assert (O1 := st_ok _ _ _ _ _ S1).
      assert (Ws1 : words_at (mem_of s1) a (S n)).
      { intros i Hi. exact (st_words _ _ _ _ _ S1 _ (word_ref c s a (S n) i Ws Hi)). }
      destruct (Ws1 0%nat ltac:(lia)) as [x Ex]. rewrite Z.add_0_r in Ex.
      assert (Wx : word_ok c s1 x) by (eapply wf_cell; [apply O1|exact Ex]).
      assert (Gx : glob c x).
      { intros b ->. destruct (wf_ref _ _ (proj1 O1) _ _ Ex); lia. }
      assert (Ws2 : words_at (mem_of s1) (a + 1) n).
      { intros i Hi. destruct (Ws1 (S i) ltac:(lia)) as [w E]. exists w. rewrite <- E. f_equal. lia. }
      rewrite (runs_rd c s1 a x O1 Ex). cbn [bind].
      assert (S2 : step c s s1 (fun I => same_tree (I l) (tlist (map I (car :: REF a :: refs (a + 1) n)) (tatom nil)))
                (fun I => same_tree (I y) (tlist (map I (x :: refs (a + 1) n)) (tatom nil)))).
      { eapply step_of; [exact S1|exact Rs| | |].
        - apply resp_list; auto. intros w [<-|Hw]; auto. eapply refs_ok; eauto.
        - intros nu Q. eexists. exact Q.
        - intros nu.
          assert (B : same_tree (tlist (map (view s1 nu) (x :: refs (a + 1) n)) (tatom nil)) (tlist (map (view s1 nu) (REF a :: refs (a + 1) n)) (tatom nil))).
          { cbn [map tlist fold_right]. apply same_tcons; [|exact (same_tree_refl _)]. apply same_tree_sym, lab_cell. exact Ex. }
          split; intros Q.
          + eapply same_tree_trans; [apply T|]. change (map (view s1 nu) (car :: REF a :: refs (a + 1) n)) with (view s1 nu car :: map (view s1 nu) (REF a :: refs (a + 1) n)).
            apply same_tcons; [exact (same_tree_refl _)|]. eapply same_tree_trans; [exact Q|exact B].
          + assert (B' : same_tree (tcons (view s1 nu car) (view s1 nu y)) (tcons (view s1 nu car) (tlist (map (view s1 nu) (REF a :: refs (a + 1) n)) (tatom nil)))).
            { eapply same_tree_trans; [apply same_tree_sym, T|exact Q]. }
            apply tcons_inv in B' as [_ B']. eapply same_tree_trans; [exact B'|apply same_tree_sym; exact B]. }
      eapply runs_imp; [apply (IH s1 y x (a + 1) O1 Wy Wx Gx Ws2 ltac:(lia))|].
      intros [s2| | | |]; cbn [rspec]; auto.
      * intros S3. eapply step_trans; eauto.
      * intros N. eapply step_none; eauto.
    + intros [_ N] nu Q. apply (N nu). eexists. exact Q.
Qed.

(** ** From the list to the term *)
Fixpoint push_words (ws : list word) (s : hst) : hst :=
  match ws with [] => s | w :: ws => push_words ws (Global_Push s w) end.
Lemma push_words_mem ws : forall s, hH (push_words ws s) = hH s + Z.of_nat (length ws) /\
  tr (hm (push_words ws s)) = tr (hm s) /\
  forall x, (hH s <= x < hH s + Z.of_nat (length ws) ->
     exists i w, x = hH s + Z.of_nat i /\ nth_error ws i = Some w /\ mem_of (push_words ws s) x = Some (Word w)) /\
    (~ (hH s <= x < hH s + Z.of_nat (length ws)) -> mem_of (push_words ws s) x = mem_of s x).
Proof.
  induction ws as [|w ws IH]; intros s; cbn [push_words length].
  - split; [lia|]. split; auto. intros x. split; [lia|auto].
  - destruct (IH (Global_Push s w)) as (H1 & H2 & H3). unfold Global_Push in H1, H2, H3 |- *.
    cbn [hH hm tr mm] in *. split; [lia|]. split; auto. intros x. destruct (H3 x) as [H4 H5]. split; intros Hx.
    + destruct (Z.eq_dec x (hH s)) as [->|N].
      * exists 0%nat, w. split; [lia|]. split; auto. rewrite H5 by lia. apply store_same.
      * destruct H4 as (i & u & E1 & E2 & E3); [lia|]. exists (S i), u. split; [lia|]. auto.
    + rewrite H5 by lia. apply store_other. lia.
Qed.

Definition arg_words (c : cfg) (s : hst) (ws : list word) : Prop :=
  Forall (fun w => word_ok c s w /\ glob c w) ws.

Lemma deref_grown c s0 m w fuel : state_ok c s0 -> grows (mem_of s0) m -> word_ok c s0 w ->
  runs (deref fuel m w) (fun u => derefs (mem_of s0) w u /\ word_ok c s0 u).
Proof.
  intros O G Ww. destruct (derefs_total _ _ (proj1 O) w Ww) as [u D].
  assert (Wu : word_ok c s0 u).
  { assert (Q : runs (deref 0 (mem_of s0) w) (fun _ => True)) by (eapply runs_imp; [apply (runs_deref c s0 w 0 O Ww)|auto]).
    clear Q. revert Ww. induction D as [a Ea|a w u Ea N D IH|w N]; intros Ww; auto. apply IH. eapply wf_cell; [apply O|exact Ea]. }
  assert (D' := grows_derefs _ _ _ _ G D). revert D'. clear - D Wu G. intros D'.
  assert (K : forall f w', derefs m w' u -> deref f m w' = NoFuel \/ deref f m w' = Ret u).
  { induction f as [|f IH]; intros w' Dw; [now left|]. inversion Dw; subst.
    - right. cbn [deref]. unfold rd_word. rewrite H. cbn [bind]. replace (word_eqb (REF a) (REF a)) with true; auto.
      symmetry. now apply word_eqb_eq.
    - cbn [deref]. unfold rd_word. rewrite H. cbn [bind]. destruct (word_eqb w0 (REF a)) eqn:Q; [apply word_eqb_eq in Q; congruence|]. apply IH. auto.
    - right. destruct u as [a|a|a|i|a|a|i]; auto. destruct (H a eq_refl). }
  destruct (K fuel w D') as [->| ->]; cbn; auto.
Qed.

Lemma univ_args_ok nil c s0 k fuel : state_ok c s0 -> forall s w a, grows (mem_of s0) (mem_of s) -> hH s0 <= hH s ->
  w = LST a -> word_ok c s0 w ->
  runs (univ_args nil k fuel c s w) (fun r =>
    match r with
    | Val (Some (n, s')) => exists ws, n = length ws /\ ws <> [] /\ s' = push_words ws s /\ arg_words c s0 ws /\ hH s' <= LSSA c /\
        forall nu, same_tree (view s0 nu w) (tlist (map (view s0 nu) ws) (tatom nil))
    | Val None => True
    | Raise EInst => True
    | Raise EList => not_list nil s0 w
    | Raise _ => False
    end).
Proof.
  intros O. induction k as [|k IH]; intros s w a G Hh -> Ww; [exact I|]. cbn [univ_args].
  assert (D0 : derefs (mem_of s0) (LST a) (LST a)) by (apply drf_other; discriminate).
  destruct (read_facts c s0 (LST a) a O D0 Ww) as (x & y & Ex & Ey & Wx & Wy & Gx & Gy & T).
  unfold rd_word at 1. rewrite (G _ _ Ex). cbn [bind].
  eapply runs_bind; [apply (deref_grown c s0 _ x fuel O G Wx)|]. intros x' (Dx & Wx').
  destruct (room c s None 1) eqn:Rm; [|exact Logic.I]. apply room_none in Rm.
  set (s1 := Global_Push s (Do_Copy_Of_Word x')).
  assert (G1 : grows (mem_of s0) (mem_of s1)).
  { intros z cc E. unfold s1, Global_Push. cbn [hm mm]. unfold store. destruct (Z.eqb_spec z (hH s)) as [->|Nz]; auto.
    destruct O as (_ & _ & F). rewrite F in E by lia. discriminate. }
  assert (H1 : hH s1 = hH s + 1) by reflexivity.
  unfold rd_word at 1. rewrite (G1 _ _ Ey). cbn [bind].
  eapply runs_bind; [apply (deref_grown c s0 _ y fuel O G1 Wy)|]. intros y' (Dy & Wy').
  assert (Wc : word_ok c s0 (Do_Copy_Of_Word x')) by (now apply copy_wf).
  assert (Gc : glob c (Do_Copy_Of_Word x')).
  { eapply copy_glob; eauto. eapply glob_derefs; [apply O|exact Dx|exact Gx]. }
  assert (Tx : forall nu, same_tree (view s0 nu x) (view s0 nu (Do_Copy_Of_Word x'))).
  { intros nu. eapply same_tree_trans; [apply view_derefs; exact Dx|]. apply same_tree_sym. eapply copy_view; eauto. }
  destruct (word_eqb y' (ATM nil)) eqn:Qy.
  - apply word_eqb_eq in Qy as ->. cbn [runs]. exists [Do_Copy_Of_Word x']. split; auto. split; [discriminate|]. split; auto.
    split; [constructor; auto|]. split; [lia|]. intros nu. cbn [map tlist fold_right].
    eapply same_tree_trans; [apply T|]. apply same_tcons; [apply Tx|]. eapply same_tree_trans; [apply view_derefs; exact Dy|]. apply lab_atom.
  - assert (Ny : y' <> ATM nil) by (intros ->; rewrite (proj2 (word_eqb_eq _ _) eq_refl) in Qy; discriminate).
    assert (K : (forall b, y' <> REF b) -> (forall b, y' <> LST b) -> not_list nil s0 (LST a)).
    { intros N1 N2. apply (not_list_cons nil s0 (LST a) x y T). exact (not_list_leaf nil c s0 y y' Wy' Dy N1 N2 Ny). }
    destruct y' as [b|b|b|i|b|b|i]; try (cbn [runs]; apply K; discriminate).
    + exact Logic.I.
    + eapply runs_bind; [apply (IH s1 (LST b) b G1 ltac:(lia) eq_refl Wy')|].
      assert (Ty : forall nu, same_tree (view s0 nu y) (view s0 nu (LST b))) by (intros nu; apply view_derefs; exact Dy).
      intros [[[n s']|]|e]; cbn [cbind runs]; auto.
      * intros (ws & -> & Nw & -> & Aw & Hl & Tw). exists (Do_Copy_Of_Word x' :: ws). split; auto. split; [discriminate|]. split; auto.
        split; [constructor; auto|]. split; [exact Hl|]. intros nu. cbn [map tlist fold_right].
        eapply same_tree_trans; [apply T|]. apply same_tcons; [apply Tx|]. eapply same_tree_trans; [apply Ty|apply Tw].
      * destruct e; auto. intros N. apply (not_list_cons nil s0 (LST a) x y T).
        intros nu ts Q. apply (N nu ts). eapply same_tree_trans; [apply same_tree_sym, Ty|exact Q].
Qed.

(** binding a variable to a new compound term with old arguments *)
Lemma old_struct c s s1 v t g b ws w : state_ok c s -> word_ok c s t ->
  derefs (mem_of s) t (REF v) -> mem_of s v = Some (Word (REF v)) ->
  grows (mem_of s) (mem_of s1) -> state_ok c s1 -> arg_words c s ws ->
  (forall i x, nth_error ws i = Some x -> mem_of s1 (b + Z.of_nat i) = Some (Word x)) ->
  word_ok c s1 w -> plain w ->
  (forall nu, same_tree (view s1 nu w) (tnode g (map (view s1 nu) (refs b (length ws))))) ->
  step c s (Hst (Bind_UV c (hm s1) v w) (hH s1)) (fun I => same_tree (I t) (tnode g (map I ws))) top.
Proof.
  intros O Wt D Ev G O1 Aw Vs Ww Pw Tw.
  assert (S1 := bind_step c s1 v w O1 (G _ _ Ev) Ww Pw).
  assert (Ag : forall nu, agree c s (view s1 nu) (view s nu)) by (intros nu x Wx; eapply grows_lab; eauto; apply O).
  assert (Wd : forall x, word_ok c s x -> word_ok c s1 x) by (intros x; now apply grows_wf_word).
  assert (D1 : derefs (mem_of s1) t (REF v)) by (eapply grows_derefs; eauto).
  assert (WRv : word_ok c s1 (REF v)) by (exists (REF v); auto).
  assert (Ax : forall (X Y : word -> tree) us, arg_words c s us -> agree c s X Y -> Forall2 same_tree (map X us) (map Y us)).
  { intros X Y us Au A. induction Au as [|u us [Wu _] Au IH]; cbn [map]; constructor; auto. }
  assert (Tw2 : forall nu, same_tree (view s1 nu w) (tnode g (map (view s1 nu) ws))).
  { intros nu. eapply same_tree_trans; [apply Tw|]. apply same_node. clear - Vs. revert b Vs.
    induction ws as [|u us IH]; intros b Vs; [constructor|]. cbn [length]. rewrite refs_S. cbn [map]. constructor.
    - apply lab_cell. specialize (Vs 0%nat u eq_refl). now rewrite Z.add_0_r in Vs.
    - apply IH. intros i x Hi. specialize (Vs (S i) x Hi). rewrite <- Vs. f_equal. lia. }
  assert (Rs : resp c s (fun I => same_tree (I t) (tnode g (map I ws)))).
  { intros X Y A Q. eapply same_tree_trans; [apply same_tree_sym, A; auto|]. eapply same_tree_trans; [exact Q|]. apply same_node. auto. }
  destruct S1 as [O2 W2 D2 I2 U2 R2 R2']. split; auto.
  - intros nu'. destruct (D2 nu') as [nu1 A1]. exists nu1. eapply agree_trans; [eapply agree_words; eauto|apply Ag].
  - intros nu'. split; [|intros _; exact I]. intros _. destruct (D2 nu') as [nu1 A1].
    eapply same_tree_trans; [apply A1; auto|]. eapply same_tree_trans; [apply view_derefs; exact D1|].
    eapply same_tree_trans; [apply same_tree_sym, A1; exact WRv|].
    eapply same_tree_trans; [apply (proj1 (I2 nu')); exact I|]. eapply same_tree_trans; [apply A1; exact Ww|].
    eapply same_tree_trans; [apply Tw2|]. apply same_node. apply Ax; auto. apply agree_sym. eapply agree_words; eauto.
  - intros nu Q. destruct (U2 nu) as [nu' A1].
    + eapply same_tree_trans; [apply same_tree_sym, view_derefs; exact D1|]. eapply same_tree_trans; [apply Ag; exact Wt|].
      eapply same_tree_trans; [exact Q|]. eapply same_tree_trans; [|apply same_tree_sym, Tw2]. apply same_node. apply Ax; auto. apply agree_sym, Ag.
    + exists nu'. eapply agree_trans; [apply agree_sym, Ag|]. eapply agree_words; eauto.
Qed.

Lemma univ_is_list nil t l : is_univ nil t l -> exists x ts, same_tree l (tlist (x :: ts) (tatom nil)).
Proof. intros [(g & ts & _ & _ & H2)|(b & _ & _ & H2)]; eauto. Qed.
Lemma not_list_none nil s t l : not_list nil s l -> no_solution s (fun I => is_univ nil (I t) (I l)).
Proof. intros N nu Q. apply univ_is_list in Q as (x & ts & Q). exact (N nu _ Q). Qed.

Lemma univ_node nil t l g ts : ts <> [] -> same_tree t (tnode g ts) ->
  (is_univ nil t l <-> same_tree l (tlist (tatom g :: ts) (tatom nil))).
Proof.
  intros N A. split.
  - intros [(g' & us & N' & H1 & H2)|(b & N' & H1 & _)].
    + assert (B : same_tree (tnode g' us) (tnode g ts)) by (eapply same_tree_trans; [apply same_tree_sym; exact H1|exact A]).
      apply node_inv in B as [-> F]. eapply same_tree_trans; [exact H2|]. apply same_tlist2. constructor; [exact (same_tree_refl _)|exact F].
    + exfalso. exact (not_node_leaf _ _ _ _ H1 N' A).
  - intros H2. left. exists g, ts. auto.
Qed.
Lemma univ_leaf nil t l b : atomic b -> same_tree t (tleaf b) ->
  (is_univ nil t l <-> same_tree l (tlist [tleaf b] (tatom nil))).
Proof.
  intros N A. split.
  - intros [(g' & us & N' & H1 & H2)|(b' & N' & H1 & H2)].
    + exfalso. exact (not_node_leaf _ _ _ _ A N H1).
    + assert (B : same_tree (tleaf b') (tleaf b)) by (eapply same_tree_trans; [apply same_tree_sym; exact H1|exact A]).
      apply same_leaf_root in B as ->. exact H2.
  - intros H2. right. exists b. auto.
Qed.
(** the other direction *)
Lemma univ_term nil t l g ts : ts <> [] -> same_tree l (tlist (tatom g :: ts) (tatom nil)) ->
  (is_univ nil t l <-> same_tree t (tnode g ts)).
Proof.
  intros N A. split.
  - intros [(g' & us & N' & H1 & H2)|(b' & N' & H1 & H2)].
    + assert (B : same_tree (tlist (tatom g' :: us) (tatom nil)) (tlist (tatom g :: ts) (tatom nil))) by (eapply same_tree_trans; [apply same_tree_sym; exact H2|exact A]).
      apply tlist_inv in B. inversion B as [|? ? ? ? B1 B2]; subst.
      assert (Q : LAtm g' = LAtm g) by (apply same_leaf_root; exact B1). injection Q as ->.
      eapply same_tree_trans; [exact H1|]. apply same_node; auto.
    + assert (B : same_tree (tlist [tleaf b'] (tatom nil)) (tlist (tatom g :: ts) (tatom nil))) by (eapply same_tree_trans; [apply same_tree_sym; exact H2|exact A]).
      apply tlist_inv in B. inversion B as [|? ? ? ? _ B2]; subst. inversion B2; subst. destruct (N eq_refl).
  - intros H2. left. exists g, ts. auto.
Qed.
Lemma univ_const nil t l b : atomic b -> same_tree l (tlist [tleaf b] (tatom nil)) ->
  (is_univ nil t l <-> same_tree t (tleaf b)).
Proof.
  intros N A. split.
  - intros [(g' & us & N' & H1 & H2)|(b' & N' & H1 & H2)].
    + assert (B : same_tree (tlist (tatom g' :: us) (tatom nil)) (tlist [tleaf b] (tatom nil))) by (eapply same_tree_trans; [apply same_tree_sym; exact H2|exact A]).
      apply tlist_inv in B. inversion B as [|? ? ? ? _ B2]; subst. inversion B2; subst. destruct (N' eq_refl).
    + assert (B : same_tree (tlist [tleaf b'] (tatom nil)) (tlist [tleaf b] (tatom nil))) by (eapply same_tree_trans; [apply same_tree_sym; exact H2|exact A]).
      apply tlist_inv in B. inversion B as [|? ? ? ? B1 _]; subst. apply same_leaf_root in B1 as ->. exact H1.
  - intros H2. right. exists b. auto.
Qed.

Lemma Univ_ok nil maxa c s t l k fuel : state_ok c s -> word_ok c s t -> word_ok c s l ->
  (forall a x b, derefs (mem_of s) l (LST a) -> mem_of s a = Some (Word x) -> ~ derefs (mem_of s) x (FDV b)) ->
  runs (Univ_2 nil maxa k fuel c s t l) (right_answer c s (fun I => is_univ nil (I t) (I l))).
Proof.
  intros O Wt Wl NF. unfold Univ_2.
  eapply runs_bind; [apply (runs_deref c s t fuel O Wt)|]. intros w (D & Ww & Rw).
  assert (RE : resp c s (fun I => is_univ nil (I t) (I l))) by (apply (resp2 _ _ (is_univ nil)); auto; apply inv_univ).
  assert (Tt : forall nu, same_tree (view s nu t) (view s nu w)) by (intros nu; apply view_derefs; exact D).
  (* term to list *)
  assert (ToL : forall car n a, word_ok c s car -> glob c car -> words_at (mem_of s) a n -> a + Z.of_nat n <= LSSA c ->
    (forall nu, is_univ nil (view s nu t) (view s nu l) <-> same_tree (view s nu l) (tlist (map (view s nu) (car :: refs a n)) (tatom nil))) ->
    runs (do b <- List_Or_Partial_List nil k fuel (mem_of s) l;
          if b then plainly (univ_list nil n fuel c s l car a) else Ret (Raise EList))
      (right_answer c s (fun I => is_univ nil (I t) (I l)))).
  { intros car n a Wc Gc Ws Ha K. eapply runs_bind; [apply (check_list_ok nil c s k fuel l O Wl)|]. intros [|] Hb.
    - apply runs_plainly. eapply runs_imp; [apply (univ_list_ok nil n fuel c s l car a O Wl Wc Gc Ws Ha)|].
      intros r Hr. exact (cspec_answer c s _ (fun I => same_tree (I l) (tlist (map I (car :: refs a n)) (tatom nil))) (Val r) RE K Hr).
    - cbn [runs right_answer]. apply not_list_none. auto. }
  assert (Leaf : forall car, match w with INT _ | ATM _ | FDV _ | FLT _ => True | _ => False end ->
     word_ok c s car -> glob c car -> (forall nu, same_tree (view s nu car) (view s nu w)) ->
     runs (do b <- List_Or_Partial_List nil k fuel (mem_of s) l;
          if b then plainly (univ_list nil 0 fuel c s l car 0) else Ret (Raise EList))
      (right_answer c s (fun I => is_univ nil (I t) (I l)))).
  { intros car Kw Wc Gc Tc. destruct (leaf_lab _ _ w Ww Kw) as (b & Ab & Hb).
    apply ToL; auto.
    - intros i Hi. lia.
    - destruct O as (_ & P & _). lia.
    - intros nu. assert (Tb : same_tree (view s nu t) (tleaf b)) by (eapply same_tree_trans; [apply Tt|apply Hb]).
      rewrite (univ_leaf nil _ (view s nu l) b Ab Tb). change (refs 0 0) with (@List.nil word). cbn [map].
      assert (B : same_tree (tlist [tleaf b] (tatom nil)) (tlist [view s nu car] (tatom nil))).
      { apply same_tlist2. constructor; [|constructor]. apply same_tree_sym. eapply same_tree_trans; [apply Tc|apply Hb]. }
      split; intros Q; (eapply same_tree_trans; [exact Q|]); [exact B|apply same_tree_sym; exact B]. }
  assert (Cmp : forall g n a, compound_at s t g n a -> a + Z.of_nat n <= LSSA c ->
     runs (do b <- List_Or_Partial_List nil k fuel (mem_of s) l;
          if b then plainly (univ_list nil n fuel c s l (ATM g) a) else Ret (Raise EList))
      (right_answer c s (fun I => is_univ nil (I t) (I l)))).
  { intros g n a (Ws & Hn & Tc) Ha. apply ToL; auto; [exact Logic.I|discriminate|].
    intros nu. assert (Ne : map (view s nu) (refs a n) <> []).
    { intros Q. apply (f_equal (@length tree)) in Q. rewrite map_length, refs_length in Q. cbn in Q. lia. }
    rewrite (univ_node nil _ (view s nu l) _ _ Ne (Tc nu)). cbn [map].
    assert (B : same_tree (tlist (tatom g :: map (view s nu) (refs a n)) (tatom nil)) (tlist (view s nu (ATM g) :: map (view s nu) (refs a n)) (tatom nil))).
    { cbn [tlist fold_right]. apply same_tcons; [apply same_tree_sym, lab_atom|exact (same_tree_refl _)]. }
    split; intros Q; (eapply same_tree_trans; [exact Q|]); [exact B|apply same_tree_sym; exact B]. }
  destruct w as [v|a|a|i|a|a|i].
  - (* list to term *)
    destruct Rw as [(v' & Qv & Ev)|Q]; [injection Qv as <-|destruct (Q v eq_refl)].
    eapply runs_bind; [apply (runs_deref c s l fuel O Wl)|]. intros lw (Dl & Wlw & _).
    assert (NL : (forall a, lw <> REF a) -> (forall a, lw <> LST a) -> no_solution s (fun I => is_univ nil (I t) (I l))).
    { intros N1 N2 nu Q. apply univ_is_list in Q as (x & ts & Q). apply (not_cons (LSSA c) (mem_of s) nu lw Wlw N1 N2).
      do 2 eexists. eapply same_tree_trans; [apply same_tree_sym, view_derefs; exact Dl|exact Q]. }
    assert (NL' : (forall a, lw <> REF a) -> (forall a, lw <> LST a) ->
      runs (if word_eqb lw (ATM nil) then Ret (@Raise (lres hst) EEmptyList) else Ret (Raise EList)) (right_answer c s (fun I => is_univ nil (I t) (I l)))).
    { intros N1 N2. destruct (word_eqb lw (ATM nil)); apply NL; auto. }
    destruct lw as [?|a|?|?|?|?|?]; try (apply NL'; discriminate); [exact Logic.I|]. clear NL NL'.
    destruct (read_facts c s l a O Dl Wlw) as (x & y & Ex & Ey & Wx & Wy & Gx & Gy & T).
    rewrite (runs_rd c s a x O Ex). cbn [bind].
    eapply runs_bind; [apply (runs_deref c s x fuel O Wx)|]. intros fw (Df & Wf & _).
    assert (Tf : forall nu, same_tree (view s nu x) (view s nu fw)) by (intros nu; apply view_derefs; exact Df).
    assert (Nfd : forall b, fw <> FDV b) by (intros b ->; exact (NF a x b Dl Ex Df)).
    assert (Fin : (forall b, fw <> REF b) -> runs
       (do y <- rd_word (mem_of s) (a + 1);
        do y <- deref fuel (mem_of s) y;
        if word_eqb y (ATM nil) then
          match fw with
          | ATM _ | INT _ | FLT _ => Ret (Val (Ok (bind_term c s v fw)))
          | _ => Ret (Raise EAtomic)
          end
        else
        match y, fw with
        | REF _, _ => Ret (Raise EInst)
        | LST _, ATM f =>
          let h := hH s in
          check r <- univ_args nil k fuel c (Hst (hm s) (h + 1)) y;
          match r with
          | None => Ret (Val Fatal)
          | Some (n, s) =>
            if maxa <? Z.of_nat n then Ret (Raise EMaxArity)
            else if (f =? ATOM_DOT) && Nat.eqb n 2 then Ret (Val (Ok (bind_term c s v (LST (h + 1)))))
            else
              let s := Hst (St (store (mm (hm s)) h (Func f n)) (tr (hm s))) (hH s) in
              Ret (Val (Ok (bind_term c s v (STC h))))
          end
        | _, ATM _ => Ret (Raise EList)
        | _, _ => Ret (Raise EAtom)
        end) (right_answer c s (fun I => is_univ nil (I t) (I l)))).
    { intros Nr. rewrite (runs_rd c s (a + 1) y O Ey). cbn [bind].
      eapply runs_bind; [apply (runs_deref c s y fuel O Wy)|]. intros y' (Dy & Wy' & _).
      assert (Ty : forall nu, same_tree (view s nu y) (view s nu y')) by (intros nu; apply view_derefs; exact Dy).
      assert (Hd : forall nu z ts, same_tree (view s nu l) (tlist (z :: ts) (tatom nil)) -> same_tree z (view s nu fw) /\ same_tree (view s nu y') (tlist ts (tatom nil))).
      { intros nu z ts Q. assert (B : same_tree (tcons (view s nu x) (view s nu y)) (tcons z (tlist ts (tatom nil)))).
        { eapply same_tree_trans; [apply same_tree_sym, T|exact Q]. }
        apply tcons_inv in B as [B1 B2]. split.
        - eapply same_tree_trans; [apply same_tree_sym; exact B1|apply Tf].
        - eapply same_tree_trans; [apply same_tree_sym, Ty|exact B2]. }
      destruct (word_eqb y' (ATM nil)) eqn:Qy.
      - apply word_eqb_eq in Qy as ->.
        assert (Tl : forall nu, same_tree (view s nu l) (tlist [view s nu fw] (tatom nil))).
        { intros nu. eapply same_tree_trans; [apply T|]. cbn [tlist fold_right]. apply same_tcons; [apply Tf|].
          eapply same_tree_trans; [apply Ty|apply lab_atom]. }
        assert (Good : match fw with INT _ | ATM _ | FLT _ => True | _ => False end ->
           right_answer c s (fun I => is_univ nil (I t) (I l)) (Val (Ok (bind_term c s v fw)))).
        { intros Kf. assert (Kf' : match fw with INT _ | ATM _ | FDV _ | FLT _ => True | _ => False end) by (destruct fw; auto).
          destruct (leaf_lab _ _ fw Wf Kf') as (b & Ab & Hb).
          assert (Pf : plain fw) by (destruct fw; try destruct Kf; exact Logic.I).
          cbn [right_answer answer_of]. apply step_answer. unfold bind_term.
          eapply step_equiv; [exact (bind_step c s v fw O Ev Wf Pf)|exact RE|].
          intros nu. assert (Tb : same_tree (view s nu l) (tlist [tleaf b] (tatom nil))).
          { eapply same_tree_trans; [apply Tl|]. apply same_tlist2. constructor; [apply Hb|constructor]. }
          rewrite (univ_const nil (view s nu t) _ b Ab Tb). split; intros Q.
          - eapply same_tree_trans; [apply same_tree_sym, Tt|]. eapply same_tree_trans; [exact Q|apply same_tree_sym, Hb].
          - eapply same_tree_trans; [apply Tt|]. eapply same_tree_trans; [exact Q|apply Hb]. }
        assert (Bad : (exists b, fw = LST b \/ fw = STC b) -> no_solution s (fun I => is_univ nil (I t) (I l))).
        { intros [b Q] nu Hu. assert (exists g ts, same_tree (view s nu fw) (tnode g ts)) as (g & ts & A).
          { destruct Q as [->| ->].
            - destruct (compound_lst c s (LST b) b (drf_other _ (LST b) ltac:(discriminate)) Wf) as (_ & _ & A). eauto.
            - destruct (rd_func_ok c s b Wf) as (g & n & _ & E & _).
              destruct (compound_stc c s (STC b) b g n (drf_other _ (STC b) ltac:(discriminate)) E Wf) as (_ & _ & A). eauto. }
          destruct Hu as [(g' & us & Nu & _ & H2)|(b' & Ab & _ & H2)].
          - apply Hd in H2 as [_ H2]. destruct us; [now apply Nu|].
            eapply tcons_not_atom. eapply same_tree_trans; [apply same_tree_sym; exact H2|apply lab_atom].
          - apply Hd in H2 as [H2 _]. exact (not_node_leaf _ b' g ts (same_tree_sym _ _ H2) Ab A). }
        destruct fw as [b|b|b|i|b|b|i]; try (apply Good; exact Logic.I); cbn [runs right_answer].
        + destruct (Nr b eq_refl).
        + apply Bad. eauto.
        + apply Bad. eauto.
        + destruct (Nfd b eq_refl).
      - assert (Ny : y' <> ATM nil) by (intros ->; rewrite word_eqb_refl in Qy; discriminate).
        assert (NoL : (forall b, y' <> REF b) -> (forall b, y' <> LST b) -> no_solution s (fun I => is_univ nil (I t) (I l))).
        { intros N1 N2. apply not_list_none. apply (not_list_cons nil s l x y T). exact (not_list_leaf nil c s y y' Wy' Dy N1 N2 Ny). }
        assert (NoL' : (forall b, y' <> REF b) -> (forall b, y' <> LST b) ->
          runs (match fw with ATM _ => Ret (@Raise (lres hst) EList) | _ => Ret (Raise EAtom) end) (right_answer c s (fun I => is_univ nil (I t) (I l)))).
        { intros N1 N2. destruct fw; cbn [runs right_answer]; auto. }
        destruct y' as [b|b|b|i|b|b|i]; try (apply NoL'; discriminate); [exact Logic.I|]. clear NoL NoL'.
        assert (NoA : (forall f, fw <> ATM f) -> no_solution s (fun I => is_univ nil (I t) (I l))).
        { intros Na nu [(g' & us & Nu & _ & H2)|(b' & Ab & _ & H2)].
          - apply Hd in H2 as [H2 _]. exact (not_atom _ nu fw g' Nr (Na g') (same_tree_sym _ _ H2)).
          - apply Hd in H2 as [_ H2].
            destruct (read_facts c s (LST b) b O (drf_other _ (LST b) ltac:(discriminate)) Wy') as (x2 & y2 & _ & _ & _ & _ & _ & _ & T2).
            eapply tcons_not_atom. eapply same_tree_trans; [apply same_tree_sym, T2|exact H2]. }
        destruct fw as [?|?|?|f|?|?|?]; try (cbn [runs right_answer]; apply NoA; discriminate).
        cbn zeta. set (h := hH s). set (s0 := Hst (hm s) (h + 1)).
        eapply runs_bind; [apply (univ_args_ok nil c s k fuel O s0 (LST b) b); auto; [intros ? ?; auto|cbn; fold h; lia]|].
        intros [[[n s2]|]|e]; cbn [cbind].
        3: { destruct e; try tauto; cbn [runs right_answer]; auto. intros N. apply not_list_none. apply (not_list_cons nil s l x y T).
             intros nu ts Q. apply (N nu ts). eapply same_tree_trans; [apply same_tree_sym, Ty|exact Q]. }
        2: { intros _. exact Logic.I. }
        intros (ws & -> & Nw & -> & Aw & Hl & Tw). destruct (maxa <? Z.of_nat (length ws)); [exact Logic.I|].
        destruct (push_words_mem ws s0) as (Hh & Ht & Hm). cbn [s0 hH hm tr] in Hh, Ht. change (hH s0) with (h + 1) in Hm.
        change (mem_of s0) with (mem_of s) in Hm. rewrite Hh in Hl.
        assert (Lw : (1 <= length ws)%nat) by (destruct ws; [now destruct Nw|cbn; lia]).
        assert (P : 0 <= h <= LSSA c) by (apply O). assert (F : forall z, h <= z < LSSA c -> mem_of s z = None) by (apply O).
        assert (Fnd : forall i z, nth_error ws i = Some z -> mem_of (push_words ws s0) (h + 1 + Z.of_nat i) = Some (Word z)).
        { intros i z E. assert (Li : (i < length ws)%nat) by (apply nth_error_Some; congruence).
          destruct (proj1 (Hm (h + 1 + Z.of_nat i)) ltac:(lia)) as (j & z' & E1 & E2 & E3). assert (j = i) by lia. subst j.
          rewrite E in E2. injection E2 as ->. exact E3. }
        assert (G1 : grows (mem_of s) (mem_of (push_words ws s0))).
        { intros z cc E. rewrite (proj2 (Hm z)); auto. intros Q. rewrite F in E by lia. discriminate. }
        (* the state before the binding: [m1] the memory *)
        assert (Ok1 : forall s1, hH s1 = h + 1 + Z.of_nat (length ws) -> grows (mem_of (push_words ws s0)) (mem_of s1) ->
            (forall z cc, mem_of s1 z = Some cc -> mem_of (push_words ws s0) z = Some cc \/ (z = h /\ forall w, cc <> Word w)) ->
            state_ok c s1).
        { intros s1 H1 G2 N1. split; [|split; [lia|]].
          - apply (grows_wf c s); [apply O| |].
            + intros z cc E. auto.
            + intros z cc E. destruct (N1 z cc E) as [Q|[-> Q]].
              * destruct (Z_le_dec (h + 1) z) as [L1|L1], (Z_lt_dec z (h + 1 + Z.of_nat (length ws))) as [L2|L2];
                  try (left; rewrite <- (proj2 (Hm z)); [exact Q|lia]).
                right. split; [lia|]. intros u ->. destruct (proj1 (Hm z) ltac:(lia)) as (j & z' & E1 & E2 & E3).
                rewrite Q in E3. injection E3 as ->. right. apply nth_error_In in E2. unfold arg_words in Aw. rewrite Forall_forall in Aw. auto.
              * right. split; [lia|]. intros u ->. destruct (Q u eq_refl).
          - intros z Hz. destruct (mem_of s1 z) as [cc|] eqn:E; auto. exfalso. destruct (N1 z cc E) as [Q|[-> Q]]; [|lia].
            rewrite (proj2 (Hm z)) in Q by lia. rewrite F in Q by lia. discriminate. }
        assert (Fin : forall s1 u, hH s1 = h + 1 + Z.of_nat (length ws) -> grows (mem_of (push_words ws s0)) (mem_of s1) ->
            state_ok c s1 -> word_ok c s1 u -> plain u -> (forall nu, same_tree (view s1 nu u) (tnode f (map (view s1 nu) (refs (h + 1) (length ws))))) ->
            right_answer c s (fun I => is_univ nil (I t) (I l)) (Val (Ok (bind_term c s1 v u)))).
        { intros s1 u H1 G2 O1 Wu Pu Tu. cbn [right_answer answer_of]. apply step_answer. unfold bind_term.
          eapply step_equiv; [apply (old_struct c s s1 v t f (h + 1) ws u); auto|exact RE|].
          - intros z cc E. auto.
          - intros nu. apply univ_term.
            + destruct ws; [now destruct Nw|discriminate].
            + eapply same_tree_trans; [apply T|]. cbn [tlist fold_right]. apply same_tcons.
              * eapply same_tree_trans; [apply Tf|apply lab_atom].
              * eapply same_tree_trans; [apply Ty|apply Tw]. }
        assert (Wsb : forall m, grows (mem_of (push_words ws s0)) m -> words_at m (h + 1) (length ws)).
        { intros m G2 i Hi. destruct (nth_error ws i) as [z|] eqn:E; [|apply nth_error_None in E; lia]. exists z. apply G2, Fnd, E. }
        destruct ((f =? ATOM_DOT) && Nat.eqb (length ws) 2) eqn:Q2.
        + apply andb_true_iff in Q2 as [Qf Qn]. apply Z.eqb_eq in Qf. apply Nat.eqb_eq in Qn. subst f.
          cbn [runs]. assert (G2 : grows (mem_of (push_words ws s0)) (mem_of (push_words ws s0))) by (intros ? ?; auto).
          apply Fin; auto.
          * split; [lia|]. rewrite <- Qn. apply Wsb; auto.
          * intros nu. rewrite Qn. apply lab_lst_node. rewrite <- Qn. apply Wsb; auto.
        + cbn [runs]. set (s1 := Hst _ _).
          assert (Em : mem_of s1 h = Some (Func f (length ws))) by apply store_same.
          assert (G2 : grows (mem_of (push_words ws s0)) (mem_of s1)).
          { intros z cc E. unfold s1. cbn [hm mm]. unfold store. destruct (Z.eqb_spec z h) as [->|Nz]; auto.
            rewrite (proj2 (Hm h)) in E by lia. rewrite F in E by lia. discriminate. }
          apply Fin; auto.
          * apply Ok1; auto. intros z cc E. unfold s1 in E. cbn [hm mm] in E. unfold store in E. destruct (Z.eqb_spec z h) as [->|Nz]; auto.
            right. split; auto. intros u ->. discriminate.
          * exists f, (length ws). split; auto. split; auto. split; [|split; [lia|apply Wsb; auto]].
            intros [-> Q]. rewrite Q in Q2. discriminate.
          * intros nu. apply lab_stc_node; auto. }
    destruct fw as [b|b|b|i|b|b|i]; try (apply Fin; discriminate). exact Logic.I.
  - apply Cmp; [eapply compound_lst; eauto|]. destruct Ww as [Q _]. lia.
  - destruct (rd_func_ok c s a Ww) as (g & n & R & E & N1 & Ws & ND & Q). rewrite R. cbn [bind fst snd].
    apply Cmp; [eapply compound_stc; eauto|]. lia.
  - apply Leaf; auto; [discriminate|intros nu; exact (same_tree_refl _)].
  - apply Leaf; auto; [discriminate|intros nu; exact (same_tree_refl _)].
  - destruct Ww as [E Q]. apply Leaf; auto; [exists (FDV a); exact E| |].
    + intros b Eb. injection Eb as <-. lia.
    + intros nu. apply lab_cell. exact E.
  - apply Leaf; auto; [discriminate|intros nu; exact (same_tree_refl _)].
Qed.
