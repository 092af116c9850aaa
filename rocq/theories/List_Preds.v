(** length/2, nth0/3, memberchk/2 and member/2. *)
Require Import ZArith List Bool Lia.
Require Import Verif.Term_Model Verif.Heap_Model Verif.Heap_Proofs Verif.Unify_Model Verif.Unify_Spec
  Verif.Unify_Proofs Verif.Unify_Proofs2 Verif.Binding_Model Verif.Binding_Proofs Verif.Copy_Model
  Verif.List_Model Verif.List_Spec Verif.List_Proofs Verif.List_Steps Verif.List_Append Verif.List_More.
Import ListNotations.
Open Scope Z_scope.

Local Notation word_ok c s w := (wf_word (LSSA c) (mm (hm s)) w).

(** ** length/2 *)
Section Length.
Variable nil : Z.
Local Notation tnil := (tatom nil).
(** [l] has [j] elements, [n] is [len + j] *)
Definition is_len (len : Z) (j : nat) (l n : tree) : Prop :=
  exists xs, length xs = j /\ same_tree l (tlist xs tnil) /\ same_tree n (tint (len + Z.of_nat j)).
Lemma inv_len len j : inv2 (is_len len j).
Proof.
  intros a a' b b' A B (xs & L & H1 & H2). exists xs. split; auto. split.
  - eapply same_tree_trans; [apply same_tree_sym; exact A|exact H1].
  - eapply same_tree_trans; [apply same_tree_sym; exact B|exact H2].
Qed.
Lemma len_0 len l n : is_len len 0 l n <-> same_tree l tnil /\ same_tree n (tint len).
Proof.
  unfold is_len. split.
  - intros (xs & L & H1 & H2). destruct xs; [|discriminate]. rewrite Z.add_0_r in H2. split; auto.
  - intros [H1 H2]. exists []. split; auto. rewrite Z.add_0_r. auto.
Qed.
Lemma len_S len j l n : is_len len (S j) l n -> is_cons l.
Proof. intros (xs & L & H1 & _). destruct xs as [|h xs]; [discriminate|]. exists h, (tlist xs tnil). exact H1. Qed.
Lemma len_cons len j h t l n : same_tree l (tcons h t) -> (is_len (len + 1) j t n <-> is_len len (S j) l n).
Proof.
  intros A. unfold is_len. replace (len + Z.of_nat (S j)) with (len + 1 + Z.of_nat j) by lia. split.
  - intros (xs & L & H1 & H2). exists (h :: xs). split; [cbn; auto|]. split; auto.
    eapply same_tree_trans; [exact A|]. cbn. apply same_tcons; auto. apply same_tree_refl.
  - intros (xs & L & H1 & H2). destruct xs as [|h2 xs]; [discriminate|]. exists xs. split; [now injection L|]. split; auto.
    eapply tcons_tl. eapply same_tree_trans; [apply same_tree_sym; exact A|exact H1].
Qed.

Variable c : cfg.
Definition LF (len : Z) (j : nat) (l n : word) : goal := fun I => is_len len j (I l) (I n).
Lemma resp_LF s len j l n : word_ok c s l -> word_ok c s n -> resp c s (LF len j l n).
Proof. intros. apply (resp2 c s (is_len len j)); auto. apply inv_len. Qed.

Definition lwalked (s : hst) (l nw : word) (n len : Z) (r : hst + word * Z) : Prop :=
  match r with
  | inl s' => exists j, step c s s' (LF len j l nw) top /\ forall i, i <> j -> no_solution s (LF len i l nw)
  | inr (l', len') => n < 0 /\ exists m, len' = len + Z.of_nat m /\
      (forall i, (i < m)%nat -> no_solution s (LF len i l nw)) /\
      (forall i, step c s s (LF len (m + i) l nw) (LF len' i l' nw)) /\
      word_ok c s l' /\ unbound s l'
  end.

Lemma partial_no_UB s fuel : state_ok c s -> forall k w, word_ok c s w ->
  runs (List_Or_Partial_List nil k fuel (mm (hm s)) w) (fun _ => True).
Proof.
  intros O. induction k as [|k IH]; intros w Ww; [exact I|]. cbn [List_Or_Partial_List].
  eapply runs_bind; [apply (runs_deref c s w fuel O Ww)|]. intros u (D & Wu & Ru).
  destruct u as [a|a|a|i|a|a|i]; try exact I.
  destruct (read_facts c s w a O D Wu) as (x & y & Ex & Ey & Wx & Wy & Gx & Gy & T).
  rewrite (runs_rd c s (a + 1) y O Ey). cbn [bind]. apply IH. exact Wy.
Qed.

(** as [rspec], an error saying the same as a failure *)
Definition espec {A} (Q : A -> Prop) (N : Prop) (r : lres A) : Prop :=
  match r with Ok x => Q x | No | Err => N | Fatal | Fd => True end.

Lemma lwalk_ok strict n k fuel : forall s l nw len, state_ok c s -> word_ok c s l -> word_ok c s nw ->
  0 <= len -> (n < 0 /\ (exists b, nw = REF b) \/ nw = INT n /\ len <= n) ->
  runs (length_walk nil k fuel c strict s l nw n len)
    (espec (lwalked s l nw n len) (forall i, no_solution s (LF len i l nw))).
Proof.
  induction k as [|k IH]; intros s l nw len O Wl Wn Hl Hn; [exact I|]. cbn [length_walk].
  eapply runs_bind; [apply (runs_deref c s l fuel O Wl)|]. intros u (D & Wu & Ru).
  assert (Vl : forall nu, same_tree (view s nu l) (view s nu u)) by (intros nu; apply view_derefs; exact D).
  assert (Skip : forall s1 y, (forall j, step c s s1 (LF len (S j) l nw) (LF (len + 1) j y nw)) ->
    no_solution s (LF len 0 l nw) -> (s1 = s \/ 0 <= n) -> word_ok c s1 y -> (0 <= n -> len < n) ->
    runs (length_walk nil k fuel c strict s1 y nw n (len + 1))
      (espec (lwalked s l nw n len) (forall i, no_solution s (LF len i l nw)))).
  { intros s1 y St N0 Hs Wy Lt.
    assert (Tr : forall i, (forall j, i = S j -> no_solution s1 (LF (len + 1) j y nw)) -> no_solution s (LF len i l nw)).
    { intros [|i] Q; [exact N0|]. eapply step_none; [apply St|]. apply Q. reflexivity. }
    eapply runs_imp; [apply (IH s1 y nw (len + 1)); auto|].
    - apply (St 0%nat).
    - apply (st_words _ _ _ _ _ (St 0%nat)). exact Wn.
    - lia.
    - destruct Hn as [Hn|[-> Hn]]; [left; exact Hn|right; split; [reflexivity|lia]].
    - intros [[s'|[l' len']]| | | |]; cbn [espec lwalked]; auto.
      + intros (j & Sj & Nj). exists (S j). split; [eapply step_trans; [apply St|exact Sj]|].
        intros i Hi. apply Tr. intros j' ->. apply Nj. congruence.
      + destruct Hs as [->|Hs]; [|lia].
        intros (Hneg & m & -> & Nm & Sm & Q1 & Q2). split; [auto|]. exists (S m). split; [lia|]. split; [|split; [|auto]].
        * intros i Hi. apply Tr. intros j ->. apply Nm. lia.
        * intros i. eapply step_trans; [apply St|]. apply Sm. }
  (* the value asked for *)
  assert (Val : forall i nu, 0 <= n -> LF len i l nw (view s nu) -> n = len + Z.of_nat i).
  { intros i nu P (xs & L & _ & H2). destruct Hn as [[Hn _]|[-> _]]; [lia|]. apply tint_inj.
    eapply same_tree_trans; [apply same_tree_sym, lab_int_tree|exact H2]. }
  assert (End : runs (if word_eqb u (ATM nil) then if n =? len then Ret (Ok (inl s)) else do r <- Get_Integer fuel c s len nw; get s <- r; Ret (Ok (inl s))
     else Ret (if strict then No else Err))
     (espec (lwalked s l nw n len) (forall i, no_solution s (LF len i l nw))) \/ (exists a, u = REF a) \/ exists a, u = LST a).
  { destruct Ru as [(a & -> & _)|Nu]; [right; left; eauto|].
    destruct (word_eqb u (ATM nil)) eqn:Q.
    - apply word_eqb_eq in Q as ->. left.
      assert (T : forall nu, same_tree (view s nu l) tnil).
      { intros nu. eapply same_tree_trans; [apply Vl|]. apply lab_atom. }
      assert (N1 : forall i, i <> 0%nat -> no_solution s (LF len i l nw)).
      { intros [|i] Hi nu H; [lia|]. apply len_S in H as (h & t & Q). eapply tcons_not_atom.
        eapply same_tree_trans; [apply same_tree_sym; exact Q|apply T]. }
      assert (I0 : forall nu, LF len 0 l nw (view s nu) <-> same_tree (view s nu nw) (tint len)).
      { intros nu. unfold LF. rewrite len_0. specialize (T nu). tauto. }
      destruct (Z.eqb_spec n len) as [Q|Q].
      + exists 0%nat. split; auto. apply step_refl; auto; [apply resp_LF; auto|apply resp_top|].
        intros nu. rewrite I0. split; [|intros _; exact I]. intros _.
        destruct Hn as [[Hn _]|[-> _]]; [lia|]. rewrite Q. apply lab_int_tree.
      + eapply runs_bind; [apply (get_integer_step c s len nw fuel O Wn)|].
        intros [s'| | | |] G; cbn [lbind espec rspec runs lwalked] in *; auto; try tauto.
        * exists 0%nat. split; auto. eapply step_of; [exact G|apply resp_LF; auto|apply resp_top| |].
          -- intros nu. apply I0.
          -- intros nu. split; [|intros _; exact I]. intros _. unfold LF. apply len_0.
             destruct (st_down _ _ _ _ _ G nu) as [nu0 Ag]. split; [|exact (proj1 (st_iff _ _ _ _ _ G nu) I)].
             eapply same_tree_trans; [apply Ag; exact Wl|apply T].
        * intros [|i] nu H; [|revert H; apply N1; lia]. apply (G nu), I0. exact H.
    - destruct u as [a|a|a|i|a|a|i]; eauto; left;
        (assert (Q' : forall i, no_solution s (LF len i l nw));
        [intros [|i'] nu H;
         [apply len_0 in H as [H _]; apply word_eqb_neq in Q;
          apply (not_atom (mm (hm s)) nu _ nil Nu Q); eapply same_view; eauto
         |apply len_S in H; eapply (not_cons (LSSA c) (mm (hm s)) nu); [exact Wu|exact Nu|discriminate|];
          eapply inv_cons; [apply Vl|exact H]]|destruct strict; exact Q']). }
  destruct u as [a|a|a|i|a|a|i]; try (destruct End as [End|[(a' & Qa)|(a' & Qa)]]; [exact End|discriminate|discriminate]); clear End.
  - destruct Ru as [(a' & Qa & Ea)|Nu]; [injection Qa as <-|destruct (Nu a eq_refl)].
    destruct (Z.ltb_spec n 0) as [Ln|Ln].
    + destruct (word_eqb (REF a) nw) eqn:Q.
      * apply word_eqb_eq in Q as <-. intros i nu (xs & L & H1 & H2).
        assert (B := same_tree_trans _ _ _ (same_tree_sym _ _ (Vl nu)) H1).
        destruct xs as [|h xs]; cbn in B.
        -- eapply tint_not_atom. eapply same_tree_trans; [apply same_tree_sym; exact H2|exact B].
        -- eapply tcons_not_int. eapply same_tree_trans; [apply same_tree_sym; exact B|exact H2].
      * split; [exact Ln|]. exists 0%nat. split; [lia|]. split; [intros; lia|]. split; [|split; auto; exists a; auto].
        intros i. apply step_refl; auto; [apply resp_LF; auto|apply resp_LF; auto|]. intros nu. reflexivity.
    + destruct (Z.eqb_spec n len) as [Q|Q].
      * eapply runs_bind; [apply (get_nil_step nil c s (REF a) fuel O Wu)|].
        intros [s'| | | |] G; cbn [lbind espec rspec runs lwalked] in *; auto; try tauto.
        -- exists 0%nat. destruct Hn as [[Hn _]|[-> _]]; [lia|]. split.
           ++ eapply step_of; [exact G|apply resp_LF; auto|apply resp_top| |].
              ** intros nu H. apply len_0 in H as [H _]. eapply same_view; eauto.
              ** intros nu. split; [|intros _; exact I]. intros _. unfold LF. apply len_0.
                 split; [|rewrite Q; apply lab_int_tree].
                 destruct (st_down _ _ _ _ _ G nu) as [nu0 Ag].
                 eapply same_tree_trans; [apply Ag; exact Wl|]. eapply same_tree_trans; [apply Vl|].
                 eapply same_tree_trans; [apply same_tree_sym, Ag; exact Wu|]. exact (proj1 (st_iff _ _ _ _ _ G nu) I).
           ++ intros i Hi nu H. apply (Val i nu Ln) in H. lia.
        -- destruct G as [_ G]. destruct (G a (drf_self _ _ Ea)).
      * assert (VL : var_or_list s (REF a)) by (exists a; right; now apply drf_self).
        eapply runs_bind; [apply (open_step false c s (REF a) fuel O Wu); auto|].
        intros [[[x y] s1]| | | |] G; cbn [lbind espec rspec runs] in *; auto; try tauto; [|destruct G; discriminate].
        destruct G as (S1 & Wx & Wy & Gx & Gy & T & _). assert (K1 := st_words _ _ _ _ _ S1).
        apply Skip; auto; [| |lia].
        -- intros j. eapply step_of; [exact S1|apply resp_LF; auto|apply resp_LF; auto| |].
           ++ intros nu H. apply len_S in H. eapply inv_cons; [apply Vl|exact H].
           ++ intros nu. unfold LF. eapply len_cons.
              destruct (st_down _ _ _ _ _ S1 nu) as [nu0 Ag].
              eapply same_tree_trans; [apply Ag; exact Wl|]. eapply same_tree_trans; [apply Vl|].
              eapply same_tree_trans; [apply same_tree_sym, Ag; exact Wu|apply T].
        -- intros nu H. apply (Val _ _ Ln) in H. lia.
  - destruct (read_facts c s l a O D Wu) as (x & y & Ex & Ey & Wx & Wy & Gx & Gy & T).
    assert (N0 : no_solution s (LF len 0 l nw)).
    { intros nu H. apply len_0 in H as [H _]. eapply tcons_not_atom. eapply same_tree_trans; [|exact H].
      apply same_tree_sym, T. }
    destruct (Z.ltb_spec n 0) as [Ln|Ln]; cbn [negb andb].
    + rewrite (runs_rd c s (a + 1) y O Ey). cbn [bind]. apply Skip; auto; [|lia].
      intros j. apply step_refl; auto; [apply resp_LF; auto|apply resp_LF; auto|].
      intros nu. unfold LF. eapply len_cons. apply T.
    + destruct (Z.ltb_spec n (len + 1)).
      * assert (Na : forall i, no_solution s (LF len i l nw)).
        { intros [|i] nu H0; [exact (N0 nu H0)|]. apply (Val _ _ Ln) in H0. lia. }
        destruct strict; [exact Na|]. eapply runs_bind; [apply (partial_no_UB s fuel O k (LST a) Wu)|].
        intros [|] _; exact Na.
      * rewrite (runs_rd c s (a + 1) y O Ey). cbn [bind]. apply Skip; auto; [|lia].
        intros j. apply step_refl; auto; [apply resp_LF; auto|apply resp_LF; auto|].
        intros nu. unfold LF. eapply len_cons. apply T.
Qed.

Variables (s0 : hst) (E : nat -> goal).
Definition LInv (b : nat) (ch : chp) : Prop :=
  exists b0 len, b = S b0 /\ c_2 ch = INT len /\ state_ok c (c_s ch) /\
    (forall j, step c s0 (c_s ch) (E (b0 + j)) (LF len j (c_0 ch) (c_1 ch))) /\
    word_ok c (c_s ch) (c_0 ch) /\ word_ok c (c_s ch) (c_1 ch) /\ unbound (c_s ch) (c_0 ch).

Lemma lvar_ok s l nw len b fuel : (forall j, step c s0 s (E (b + j)) (LF len j l nw)) -> state_ok c s ->
  word_ok c s l -> word_ok c s nw -> unbound s l ->
  runs (length_var nil fuel c s l nw len) (res_ok c s0 E LInv b).
Proof.
  intros St O Wl Wn U. unfold length_var.
  assert (Nx : LInv (S b) (Chp s l nw (INT len))).
  { exists b, len. split; [reflexivity|]. split; [reflexivity|]. cbn. tauto. }
  assert (Q := St 0%nat). rewrite Nat.add_0_r in Q.
  eapply runs_bind; [apply (get_nil_step nil c s l fuel O Wl)|]. intros r G.
  assert (P : runs (get s1 <- r; Get_Integer fuel c s1 len nw)
     (rspec (fun s' => step c s s' (LF len 0 l nw) top) (no_solution s (LF len 0 l nw)))).
  { destruct r as [s1| | | |]; cbn [lbind rspec runs] in *; auto; try tauto.
    - assert (K1 := st_words _ _ _ _ _ G).
      assert (S1 : step c s s1 (LF len 0 l nw) (fun I => same_tree (I nw) (tint len))).
      { eapply step_of; [exact G|apply resp_LF; auto| | |].
        - apply (resp1 _ _ (fun t => same_tree t (tint len))); auto. apply inv_int.
        - intros nu H. apply len_0 in H. tauto.
        - intros nu. unfold LF. rewrite len_0. assert (Q' := proj1 (st_iff _ _ _ _ _ G nu) I). cbn in Q'. tauto. }
      eapply runs_imp; [apply (get_integer_step c s1 len nw fuel); auto; apply G|].
      intros [s2| | | |]; cbn; auto.
      + intros S2. eapply step_trans; eauto.
      + intros N. eapply step_none; eauto.
    - destruct G as [G _]. intros nu H. apply len_0 in H as [H _]. exact (G nu H). }
  eapply runs_bind; [exact P|]. intros x Hx. cbn [runs].
  destruct x as [s'| | | |]; cbn [rspec] in Hx; unfold res_ok; cbn [fst snd next]; auto; try tauto.
  - exists b. split; [lia|]. split; [intros j Hj; lia|]. split; auto. apply (step_goal c s0 s' (E b)).
    eapply step_trans; eauto.
  - exists (S b). split; [lia|]. split; auto. intros j Hj. assert (j = b) by lia. subst j. eapply step_none; eauto.
Qed.

Lemma alt_length_ok fuel b ch : LInv b ch -> runs (Length_Alt_0 nil fuel c ch) (res_ok c s0 E LInv b).
Proof.
  intros (b0 & len & -> & Q & O & St & W0 & W1 & U). unfold Length_Alt_0. rewrite Q.
  set (s := c_s ch) in *. set (l := c_0 ch) in *. set (nw := c_1 ch) in *.
  assert (VL : var_or_list s l) by (destruct U as (a & Da & _); exists a; auto).
  eapply runs_bind; [apply (open_step false c s l fuel O W0); auto|].
  intros [[[x l'] s1]| | | |] H; cbn [rspec] in H; try exact I; try (destruct H; discriminate); try tauto.
  destruct H as (S1 & Wx & W1' & Gx & G1 & T1 & Sh). assert (K1 := st_words _ _ _ _ _ S1).
  apply lvar_ok; auto.
  - intros j. replace (S b0 + j)%nat with (b0 + S j)%nat by lia. eapply step_trans; [apply St|].
    eapply step_of; [exact S1|apply resp_LF; auto|apply resp_LF; auto| |].
    + intros nu H. apply len_S in H. exact H.
    + intros nu. unfold LF. eapply len_cons. apply T1.
  - apply S1.
  - destruct U as (b & Db & Eb). destruct Sh as [(a & Da & _)|(a & Da & Ea & Hr & -> & -> & ->)].
    + exfalso. assert (Qd := derefs_det _ _ _ Db _ Da). discriminate.
    + apply (unbound_of _ _ (hH s + 1)). apply drf_self. now apply write2_new.
Qed.
End Length.

Lemma length_ok nil c strict s l nw k fuel : state_ok c s -> word_ok c s l -> word_ok c s nw ->
  let E := fun j I => is_length nil j (I l) (I nw) in
  runs (Length_2 nil k fuel c strict s l nw) (res_ok c s E (LInv nil c s E) 0).
Proof.
  intros O Wl Wn E. unfold Length_2.
  eapply runs_bind; [apply (runs_deref c s nw fuel O Wn)|]. intros u (D & Wu & Ru).
  assert (Vn : forall nu, same_tree (view s nu nw) (view s nu u)) by (intros nu; apply view_derefs; exact D).
  assert (E0 : forall j, step c s s (E j) (LF nil 0 j l u)).
  { assert (Iq : forall j, inv2 (is_length nil j)).
    { intros j a a' b b' A B H. exact (inv_len nil 0 j a a' b b' A B H). }
    intros j. apply step_refl; auto.
    - apply (resp2 c s (is_length nil j)); auto.
    - apply resp_LF; auto.
    - intros nu. unfold E, LF. split; intros H.
      + eapply (inv_len nil 0 j); [apply same_tree_refl|apply same_tree_sym, Vn|exact H].
      + eapply (inv_len nil 0 j); [apply same_tree_refl|apply Vn|exact H]. }
  set (o := match u with INT n => if n <? 0 then None else Some n | REF _ => Some (-1) | _ => None end).
  assert (Ho : match o with
     | Some n => n < 0 /\ (exists b, u = REF b) \/ u = INT n /\ 0 <= n
     | None => forall j, no_solution s (E j) end).
  { assert (Ni : (forall a, u <> REF a) -> (forall n, 0 <= n -> u <> INT n) -> forall j, no_solution s (E j)).
    { intros N1 N2 j nu (xs & L & _ & H2). apply (not_int (mm (hm s)) nu u (Z.of_nat j) N1).
      - apply N2. lia.
      - eapply same_tree_trans; [apply same_tree_sym, Vn|exact H2]. }
    subst o. destruct u as [a|a|a|i|a|a|n]; try (apply Ni; discriminate).
    - left. split; [lia|eauto].
    - destruct (Z.ltb_spec n 0); [|right; auto]. apply Ni; [discriminate|]. intros n' Hn' Q. injection Q as ->. lia. }
  destruct o as [n|].
  2: { intros j _. apply Ho. }
  eapply runs_bind; [apply (lwalk_ok nil c strict n k fuel s l u 0); auto; try lia|].
  intros [[s'|[l' len']]| | | |] H; cbn [espec lwalked] in H; try exact I.
  - destruct H as (j & Sj & Nj). exists j. split; [lia|].
    assert (N' : forall i, i <> j -> no_solution s (E i)) by (intros i Hi; eapply step_none; [apply E0|apply Nj; auto]).
    split; [intros i Hi; apply N'; lia|]. split; [|intros i Hi; apply N'; lia].
    apply (step_goal c s s' (E j)). eapply step_trans; [apply E0|exact Sj].
  - destruct H as (_ & m & -> & Nm & Sm & Wl' & U).
    assert (Nb : forall i, (i < m)%nat -> no_solution s (E i)) by (intros i Hi; eapply step_none; [apply E0|apply Nm; auto]).
    eapply runs_imp; [apply (lvar_ok nil c s E s l' u (0 + Z.of_nat m) m fuel); auto|].
    { intros j. eapply step_trans; [apply E0|apply Sm]. }
    assert (Nn : forall b', (m <= b')%nat -> none_in s E m b' -> none_in s E 0 b').
    { intros b' L Q j Hj. destruct (Compare_dec.le_lt_dec m j) as [L'|L']; [apply Q; lia|apply Nb; auto]. }
    intros [[s'| | | |] o']; unfold res_ok; cbn [fst snd]; auto.
    + intros (k' & L & Q1 & Q2 & Q3). exists k'. split; [lia|]. split; [apply Nn; auto|]. auto.
    + intros (k' & L & Q1 & Q2). exists k'. split; [lia|]. split; [apply Nn; auto|]. auto.
    + intros Q j _. destruct (Compare_dec.le_lt_dec m j) as [L'|L']; [apply Q; lia|apply Nb; auto].
  - exists 0%nat. split; [lia|]. split; [intros j Hj; lia|]. intros j _. eapply step_none; [apply E0|apply H].
  - intros j _. eapply step_none; [apply E0|apply H].
Qed.
