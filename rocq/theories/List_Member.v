(** nth0/3, memberchk/2 and member/2. *)
Require Import ZArith List Bool Lia.
Require Import Verif.Term_Model Verif.Heap_Model Verif.Heap_Proofs Verif.Unify_Model Verif.Unify_Spec
  Verif.Unify_Proofs Verif.Unify_Proofs2 Verif.Binding_Model Verif.Binding_Proofs Verif.Copy_Model
  Verif.List_Model Verif.List_Spec Verif.List_Proofs Verif.List_Steps Verif.List_Append Verif.List_More
  Verif.List_Preds.
Import ListNotations.
Open Scope Z_scope.

Local Notation word_ok c s w := (wf_word (LSSA c) (mm (hm s)) w).

Lemma inv_member j : inv2 (is_member j).
Proof.
  intros a a' b b' A B (xs & t & L & H). exists xs, t. split; auto.
  eapply same_tree_trans; [apply same_tree_sym; exact B|]. eapply same_tree_trans; [exact H|].
  apply same_tlist. apply same_tcons; auto. apply same_tree_refl.
Qed.
Lemma member_0 x l : is_member 0 x l <-> starts x l.
Proof.
  split.
  - intros (xs & t & L & H). destruct xs; [|discriminate]. exists t. exact H.
  - intros (t & H). exists [], t. auto.
Qed.
Lemma member_cons j x l : is_member j x l -> is_cons l.
Proof. intros (xs & t & L & H). destruct xs as [|h xs]; cbn in H; do 2 eexists; exact H. Qed.
Lemma member_S j x h t l : same_tree l (tcons h t) -> (is_member j x t <-> is_member (S j) x l).
Proof.
  intros A. split.
  - intros (xs & u & L & H). exists (h :: xs), u. split; [cbn; auto|]. eapply same_tree_trans; [exact A|].
    cbn. apply same_tcons; auto. apply same_tree_refl.
  - intros (xs & u & L & H). destruct xs as [|h2 xs]; [discriminate|]. exists xs, u. split; [now injection L|].
    eapply tcons_tl. eapply same_tree_trans; [apply same_tree_sym; exact A|exact H].
Qed.
Lemma member_hd x h t l : same_tree l (tcons h t) -> (same_tree x h <-> is_member 0 x l).
Proof.
  intros A. rewrite member_0. split.
  - intros Q. exists t. eapply same_tree_trans; [exact A|]. apply same_tcons; [apply same_tree_sym; exact Q|apply same_tree_refl].
  - intros (u & Q). apply same_tree_sym. eapply tcons_hd. eapply same_tree_trans; [apply same_tree_sym; exact A|exact Q].
Qed.

Section Member.
Variable c : cfg.
Definition M (j : nat) (x l : word) : goal := fun I => is_member j (I x) (I l).
Lemma resp_M s j x l : word_ok c s x -> word_ok c s l -> resp c s (M j x l).
Proof. intros. apply (resp2 c s (is_member j)); auto. apply inv_member. Qed.

(** ** nth *)
Lemma nth_ok fuel n : forall s l x, state_ok c s -> word_ok c s l -> word_ok c s x ->
  runs (nth_walk n fuel c s l x)
    (rspec (fun s' => step c s s' (M n x l) top) (no_solution s (M n x l))).
Proof.
  induction n as [|n IH]; intros s l x O Wl Wx; cbn [nth_walk];
    (eapply runs_bind; [apply (open_step true c s l fuel O Wl); discriminate|]);
    (intros [[[e y] s1]| | | |] G; cbn [lbind espec rspec runs] in *; auto; try tauto;
     [|destruct G as [_ G]; intros nu H; apply (G nu), (member_cons _ _ _ H)]);
    destruct G as (S1 & We & Wy & Ge & Gy & T & _); assert (K1 := st_words _ _ _ _ _ S1);
    assert (O1 := st_ok _ _ _ _ _ S1).
  - assert (St : step c s s1 (M 0 x l) (fun I => same_tree (I e) (I x))).
    { eapply step_of; [exact S1|apply resp_M; auto|apply (resp2 _ _ same_tree); auto; apply inv_same| |].
      - intros nu H. apply (member_cons _ _ _ H).
      - intros nu. unfold M. rewrite <- (member_hd _ _ _ _ (T nu)). split; apply same_tree_sym. }
    eapply runs_imp; [apply (unify_step c s1 e x fuel); auto|].
    intros [s2| | | |]; cbn; auto; [intros S2; eapply step_trans; eauto|intros N; eapply step_none; eauto].
  - assert (St : step c s s1 (M (S n) x l) (M n x y)).
    { eapply step_of; [exact S1|apply resp_M; auto|apply resp_M; auto| |].
      - intros nu H. apply (member_cons _ _ _ H).
      - intros nu. unfold M. eapply member_S. apply T. }
    eapply runs_imp; [apply (IH s1 y x); auto|].
    intros [s2| | | |]; cbn; auto; [intros S2; eapply step_trans; eauto|intros N; eapply step_none; eauto].
Qed.

(** ** memberchk *)
Lemma memberchk_ok fuel k : forall s x l, state_ok c s -> word_ok c s x -> word_ok c s l -> glob c x ->
  runs (Memberchk_2 k fuel c s x l) (first_of c s (fun j => M j x l)).
Proof.
  induction k as [|k IH]; intros s x l O Wx Wl Gx; [exact I|]. cbn [Memberchk_2].
  assert (P := put_step true c s l x fuel O Wl Wx Gx ltac:(discriminate)). unfold put_list in P.
  assert (Q := open_step true c s l fuel O Wl ltac:(discriminate)). unfold open_list in Q.
  destruct (Get_List fuel c s l) as [[[s1 md]|]| |] eqn:G; cbn [bind runs rspec] in *; auto; try tauto.
  2: { destruct Q as [_ Q]. intros j nu H. apply (Q nu), (member_cons _ _ _ H). }
  destruct (room c s1 md 2); [|exact I].
  assert (Gd : forall s2 C y, step c s s2 C top -> (forall nu, C (view s nu) <-> M 0 x l (view s nu)) ->
     word_ok c s2 y -> exists k0 : nat, (forall j, (j < k0)%nat -> no_solution s (M j x l)) /\ answers_goal c s s2 (M k0 x l)).
  { intros s2 C y S2 IC _. exists 0%nat. split; [intros j Hj; lia|]. apply (step_goal c s s2 (M 0 x l)).
    eapply step_of; [exact S2|apply resp_M; auto|apply resp_top| |].
    - intros nu. apply IC.
    - intros nu. split; [|intros _; exact I]. intros _.
      destruct (st_down _ _ _ _ _ S2 nu) as [nu0 Ag].
      apply (resp_M s 0 x l Wx Wl (view s nu0)); [apply agree_sym; exact Ag|]. apply IC.
      apply (st_resp _ _ _ _ _ S2 _ _ Ag). apply (st_iff _ _ _ _ _ S2 nu). exact I. }
  assert (IC : forall nu, starts (view s nu x) (view s nu l) <-> M 0 x l (view s nu)).
  { intros nu. symmetry. apply member_0. }
  destruct (Unify_Value fuel c s1 md x) as [[[u s2] md2]| |] eqn:U; cbn [bind runs] in *; auto.
  destruct u; auto.
  - destruct md2 as [a2|]; cbn [Unify_Variable bind fst snd runs rspec] in *.
    + destruct (rd_word (mm (hm s2)) a2) as [v| |] eqn:R; cbn [bind runs rspec fst snd] in *; auto; try tauto.
      * destruct P as (S2 & Wy & _). exact (Gd s2 _ _ S2 IC Wy).
      * unfold rd_word in R. destruct (mm (hm s2) a2) as [[]|]; discriminate.
    + destruct P as (S2 & Wy & _). exact (Gd _ _ _ S2 IC Wy).
  - cbn in P. destruct P as [_ P].
    assert (N0 : no_solution s (M 0 x l)) by (intros nu H; apply (P nu), IC; exact H).
    unfold Unify_Value in U. destruct md as [a|]; [|discriminate].
    assert (s1 = s).
    { unfold Get_List in G. destruct (deref fuel (mm (hm s)) l) as [w| |]; try discriminate. cbn [bind] in G.
      destruct w; try discriminate; injection G; auto. }
    subst s1. cbn [Unify_Variable] in Q.
    destruct (rd_word (mm (hm s)) a) as [v| |]; cbn [bind fst snd Unify_Variable runs rspec] in *; try discriminate.
    destruct (Unify false fuel c (hm s) x v) as [[r t]| |]; cbn [bind fst snd] in U; try discriminate.
    injection U as -> <- <-. cbn [Unify_Variable].
    destruct (rd_word (mm (hm s)) (a + 1)) as [y| |]; cbn [bind fst snd Unify_Variable runs rspec] in *; try tauto.
    destruct Q as (S1 & We & Wy & Ge & Gy & T & _).
    eapply runs_imp; [apply (IH s x (Do_Copy_Of_Word y)); auto|].
    assert (Tr : forall j, step c s s (M (S j) x l) (M j x (Do_Copy_Of_Word y))).
    { intros j. apply step_refl; auto; [apply resp_M; auto|apply resp_M; auto|]. intros nu. unfold M. eapply member_S. apply T. }
    assert (Tn : forall j, no_solution s (M j x (Do_Copy_Of_Word y)) -> no_solution s (M (S j) x l)).
    { intros j N. eapply step_none; [apply Tr|exact N]. }
    intros [s'| | | |]; cbn [first_of]; auto.
    + intros (k0 & N & A). exists (S k0). split.
      * intros [|j] Hj; [exact N0|]. apply Tn, N. lia.
      * apply (step_goal c s s' (M (S k0) x l)). eapply step_trans; [apply Tr|].
        apply step_goal. split; auto. apply resp_M; auto.
    + intros N [|j]; [exact N0|]. apply Tn, N.
Qed.

(** ** member *)
Lemma ext_derefs m m' w u : ext m m' -> derefs m w u -> (forall a, u <> REF a) -> derefs m' w u.
Proof.
  intros X. induction 1 as [a E|a v u E N D IH|w N]; intros H.
  - destruct (H a eq_refl).
  - eapply drf_step; [|exact N|auto]. eapply ext_keep; eauto. intros Q. injection Q as ->. destruct (N eq_refl).
  - now apply drf_other.
Qed.
Lemma closed_derefs m w u : derefs m w u -> closed_list m w -> closed_list m u.
Proof.
  intros D C. inversion C as [w' u' D' N1 N2|w' a y D' E C']; subst.
  - assert (u' = u) by (eapply derefs_det; eauto). subst. eapply cl_end; eauto. now apply drf_other.
  - assert (LST a = u) by (eapply derefs_det; eauto). subst. eapply cl_cell; eauto. apply drf_other. discriminate.
Qed.
Lemma closed_copy s y : word_ok c s y -> closed_list (mm (hm s)) y -> closed_list (mm (hm s)) (Do_Copy_Of_Word y).
Proof.
  intros W C. destruct y; auto. cbn in *. apply (cl_end _ _ (FDV a)); try discriminate.
  destruct W as [E _]. eapply drf_step; [exact E|discriminate|]. apply drf_other. discriminate.
Qed.
Lemma open_closed s t chk fuel e y s1 : state_ok c s -> word_ok c s t -> closed_list (mm (hm s)) t ->
  open_list chk fuel c s t = Ret (Ok (e, y, s1)) -> closed_list (mm (hm s)) y /\ s1 = s.
Proof.
  intros O W C H. unfold open_list, Get_List in H.
  assert (P := runs_deref c s t fuel O W).
  destruct (deref fuel (mm (hm s)) t) as [u| |]; try discriminate. destruct P as (D & Wu & Ru). cbn [bind] in H.
  assert (C' := closed_derefs _ _ _ D C).
  destruct u as [a|a|a|i|a|a|i]; cbn [bind] in H; try (destruct chk; discriminate).
  - exfalso. destruct Ru as [(b & Q & E)|N]; [injection Q as <-|exact (N a eq_refl)].
    assert (Ds := drf_self _ _ E).
    inversion C' as [w' u' D' N1 N2|w' a' y' D' E' C2]; subst.
    + assert (Q := derefs_det _ _ _ D' _ Ds). destruct (N1 a Q).
    + assert (Q := derefs_det _ _ _ D' _ Ds). discriminate.
  - destruct (read_facts c s t a O D Wu) as (x0 & y0 & Ex & Ey & Wx & Wy & Gx & Gy & T).
    cbn [room Unify_Variable] in H. rewrite (runs_rd c s a x0 O Ex) in H. cbn [bind fst snd Unify_Variable] in H.
    rewrite (runs_rd c s (a + 1) y0 O Ey) in H. cbn [bind fst snd] in H. injection H as <- <- <-. split; auto.
    apply closed_copy; auto.
    inversion C' as [w' u' D' N1 N2|w' a' y' D' E' C2]; subst.
    + inversion D'; subst. destruct (N2 a eq_refl).
    + inversion D'; subst. assert (y' = y0) by congruence. now subst.
Qed.

Variables (s : hst) (E : nat -> goal) (x : word).
Definition MInv (b : nat) (ch : chp) : Prop :=
  c_s ch = s /\ c_0 ch = x /\ (exists a, c_2 ch = LST a) /\ word_ok c s (c_2 ch) /\
  closed_list (mm (hm s)) (c_2 ch) /\ forall j nu, E (b + j)%nat (view s nu) <-> M j x (c_2 ch) (view s nu).
Hypothesis Os : state_ok c s.
Hypothesis Wx : word_ok c s x.
Hypothesis RE : forall j, resp c s (E j).

Lemma member_3_ok fuel k : forall e t b, word_ok c s e -> word_ok c s t -> closed_list (mm (hm s)) t ->
  (forall nu, E b (view s nu) <-> same_tree (view s nu x) (view s nu e)) ->
  (forall j nu, E (S b + j)%nat (view s nu) <-> M j x t (view s nu)) ->
  runs (Member_3 k fuel c s x e t) (res_ok c s E MInv b).
Proof.
  induction k as [|k IH]; intros e t b We Wt Ct He Ht; [exact I|]. cbn [Member_3].
  assert (P := unify_step c s x e fuel Os Wx We). unfold unify in P.
  destruct (Unify false fuel c (hm s) x e) as [[r t']| |] eqn:U; [|exact P|exact I]. cbn [bind runs fst snd] in *.
  destruct (Unify_sound _ _ _ _ _ _ _ _ (proj1 Os) Wx We U) as [(W' & X & _) _].
  destruct t' as [m' tr']. cbn [mm] in *.
  assert (O' : state_ok c (Hst (St m' tr') (hH s))) by (apply ext_ok; auto).
  eapply runs_bind; [apply (runs_deref c (Hst (St m' tr') (hH s)) t fuel O')|].
  { cbn [hm mm]. eapply ext_wf_word; eauto. }
  intros w (Dw & Ww' & _). cbn [hm mm] in Dw, Ww'.
  (* the same tail before the unification *)
  assert (T : exists u, derefs (mm (hm s)) t u /\ (forall a, u <> REF a)).
  { inversion Ct; subst; eexists; split; eauto; discriminate. }
  destruct T as (u & Du & Nu). assert (w = u). { eapply derefs_det; [exact Dw|]. eapply ext_derefs; eauto. } subst w.
  assert (Wu := derefs_wf _ _ _ _ (proj1 Os) Du Wt).
  assert (Vt : forall nu, same_tree (view s nu t) (view s nu u)) by (intros nu; apply view_derefs; exact Du).
  assert (Good : forall s' o, step c s s' (fun I => same_tree (I x) (I e)) top -> next s E MInv (S b) o -> res_ok c s E MInv b (Ok s', o)).
  { intros s' o S1 Nx. exists b. split; [lia|]. split; [intros j Hj; lia|]. split; [|exact Nx].
    apply (step_goal c s s' (E b)). eapply step_of; [exact S1|auto|apply resp_top| |].
    - intros nu. apply He.
    - intros nu. split; [|intros _; exact I]. intros _. destruct (st_down _ _ _ _ _ S1 nu) as [nu0 Ag].
      apply (RE b (view s nu0)); [apply agree_sym; exact Ag|]. apply He.
      apply (st_resp _ _ _ _ _ S1 _ _ Ag). apply (st_iff _ _ _ _ _ S1 nu). exact I. }
  assert (Last : (forall a, u <> LST a) -> none_from s E (S b)).
  { intros N j Hj nu H. replace j with (S b + (j - S b))%nat in H by lia. apply Ht in H. apply member_cons in H.
    eapply (not_cons (LSSA c) (mm (hm s)) nu u); eauto. eapply inv_cons; [apply Vt|exact H]. }
  assert (Fin : (forall a, u <> LST a) -> runs (Ret (match r with USucc => Ok (Hst (St m' tr') (hH s)) | _ => @No hst end, @None chp)) (fun x0 => r = UFd \/ res_ok c s E MInv b x0)).
  { intros N. cbn [runs]. destruct r; [right|right|left; reflexivity].
    - cbn in P. apply Good; [exact P|]. exact (Last N).
    - cbn in P. exists b. split; [lia|]. split; [intros j Hj; lia|]. intros j Hj.
      destruct (PeanoNat.Nat.eq_dec j b) as [->|Q]; [|apply (Last N); lia]. intros nu H. apply (P nu), He. exact H. }
  destruct r; [| |exact I].
  - cbn [runs] in P, Fin. destruct u as [a|a|a|i|a|a|i]; try (destruct (Fin ltac:(discriminate)) as [Q|Q]; [discriminate|exact Q]).
    + destruct (Nu a eq_refl).
    + apply Good; [exact P|]. cbn [next]. split; [reflexivity|]. split; [reflexivity|]. split; [eexists; reflexivity|].
      split; [exact Wu|]. split; [eapply closed_derefs; eauto|]. intros j nu. rewrite Ht. unfold M. cbn [c_2].
      split; intros H; [eapply inv_member; [apply same_tree_refl|apply Vt|exact H]|eapply inv_member; [apply same_tree_refl|apply same_tree_sym, Vt|exact H]].
  - cbn [runs] in P, Fin. destruct u as [a|a|a|i|a|a|i]; try (destruct (Fin ltac:(discriminate)) as [Q|Q]; [discriminate|exact Q]).
    + destruct (Nu a eq_refl).
    + assert (VL : var_or_list s t) by (exists a; auto).
      assert (G := open_step false c s t fuel Os Wt (fun _ => VL)).
      destruct (open_list false fuel c s t) as [r| |] eqn:Eo; [|exact G|exact I]. cbn [bind runs] in *.
      destruct r as [[[e' y] s1]| | | |]; cbn [rspec] in G; try exact I; try tauto; [|destruct G; discriminate].
      destruct (open_closed _ _ _ _ _ _ _ Os Wt Ct Eo) as [Cy ->].
      destruct G as (_ & We' & Wy & _ & _ & Tt & _).
      eapply runs_imp; [apply (IH e' y (S b)); auto|].
      * intros nu. rewrite <- (PeanoNat.Nat.add_0_r (S b)), Ht. unfold M. symmetry. eapply member_hd. apply Tt.
      * intros j nu. replace (S (S b) + j)%nat with (S b + S j)%nat by lia. rewrite Ht. unfold M. symmetry.
        eapply member_S. apply Tt.
      * assert (Nb : no_solution s (E b)) by (intros nu H; apply (P nu), He; exact H).
        assert (Nn : forall b', (S b <= b')%nat -> none_in s E (S b) b' -> none_in s E b b').
        { intros b' L Q j Hj. destruct (PeanoNat.Nat.eq_dec j b) as [->|Q']; [exact Nb|apply Q; lia]. }
        intros [[s'| | | |] o']; unfold res_ok; cbn [fst snd]; auto.
        -- intros (k' & L & Q1 & Q2 & Q3). exists k'. split; [lia|]. split; [apply Nn; auto|]. auto.
        -- intros (k' & L & Q1 & Q2). exists k'. split; [lia|]. split; [apply Nn; auto|]. auto.
        -- intros Q j Hj. destruct (PeanoNat.Nat.eq_dec j b) as [->|Q']; [exact Nb|apply Q; lia].
Qed.

Lemma open_member fuel chk k l b : word_ok c s l -> closed_list (mm (hm s)) l -> (chk = false -> exists a, l = LST a) ->
  (forall j nu, E (b + j)%nat (view s nu) <-> M j x l (view s nu)) ->
  runs (do r <- open_list chk fuel c s l;
        match r with
        | Ok (e, t, s) => Member_3 k fuel c s x e t
        | No => Ret (No, None) | Fatal => Ret (Fatal, None) | Fd => Ret (Fd, None) | Err => Ret (Err, None)
        end) (res_ok c s E MInv b).
Proof.
  intros Wl Cl Ck Hl.
  assert (G := open_step chk c s l fuel Os Wl).
  destruct (open_list chk fuel c s l) as [r| |] eqn:Eo; [|apply G|exact I].
  2: { intros Q. destruct (Ck Q) as (a & ->). exists a. left. apply drf_other. discriminate. }
  cbn [bind runs] in *.
  assert (G' := G ltac:(intros Q; destruct (Ck Q) as (a & ->); exists a; left; apply drf_other; discriminate)). clear G.
  destruct r as [[[e y] s1]| | | |]; cbn [rspec] in G'; try exact I; try tauto.
  - destruct (open_closed _ _ _ _ _ _ _ Os Wl Cl Eo) as [Cy ->].
    destruct G' as (_ & We & Wy & _ & _ & T & _). apply member_3_ok; auto.
    + intros nu. rewrite <- (PeanoNat.Nat.add_0_r b), Hl. unfold M. symmetry. eapply member_hd. apply T.
    + intros j nu. replace (S b + j)%nat with (b + S j)%nat by lia. rewrite Hl. unfold M. symmetry.
      eapply member_S. apply T.
  - destruct G' as [_ G']. exists b. split; [lia|]. split; [intros j Hj; lia|]. intros j Hj nu H.
    replace j with (b + (j - b))%nat in H by lia. apply Hl in H. exact (G' nu (member_cons _ _ _ H)).
Qed.

Lemma alt_member_ok fuel k b ch : MInv b ch -> runs (Member_Alt_0 k fuel c ch) (res_ok c s E MInv b).
Proof.
  intros (Q1 & Q2 & Q3 & Q4 & Q5 & Q6). unfold Member_Alt_0. rewrite Q1, Q2. apply open_member; auto.
Qed.
End Member.

Lemma member_ok c s x l k fuel : state_ok c s -> word_ok c s x -> word_ok c s l -> closed_list (mm (hm s)) l ->
  let E := fun j I => is_member j (I x) (I l) in
  runs (Member_2 k fuel c s x l) (res_ok c s E (MInv c s E x) 0).
Proof.
  intros O Wx Wl C E. unfold Member_2. apply open_member; auto.
  - intros j. apply (resp_M c s j x l); auto.
  - discriminate.
  - intros j nu. reflexivity.
Qed.
