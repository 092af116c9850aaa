(** the errors; setarg/4 *)
Require Import ZArith List Bool Lia PeanoNat Floats.SpecFloat.
Require Import Verif.Term_Model Verif.Term_Proofs Verif.Heap_Model Verif.Heap_Proofs.
Require Import Verif.Unify_Model Verif.Unify_Spec Verif.Unify_Proofs Verif.Unify_Proofs2.
Require Import Verif.Binding_Model Verif.Binding_Spec Verif.Binding_Proofs Verif.Copy_Model.
Require Import Verif.List_Model Verif.List_Spec Verif.List_Proofs Verif.List_Steps Verif.List_Append.
Require Import Verif.Univ_Model Verif.Univ_Spec Verif.Univ_Proofs Verif.Univ_Proofs2 Verif.Univ_Proofs3 Verif.Univ_Proofs4.
Import ListNotations.
Open Scope Z_scope.
Local Notation word_ok c s w := (wf_word (LSSA c) (mm (hm s)) w).
Local Notation mem_of s := (mm (hm s)).

Lemma deref_is fuel m w u : derefs m w u -> runs (deref fuel m w) (fun v => v = u).
Proof.
  revert w. induction fuel as [|f IH]; intros w D; [exact I|]. inversion D; subst.
  - cbn [deref]. unfold rd_word. rewrite H. cbn [bind]. rewrite word_eqb_refl. reflexivity.
  - cbn [deref]. unfold rd_word. rewrite H. cbn [bind]. destruct (word_eqb w0 (REF a)) eqn:Q; [apply word_eqb_eq in Q; congruence|auto].
  - destruct u as [a|a|a|i|a|a|i]; cbn; auto. destruct (H a eq_refl).
Qed.
Lemma derefs_wf c s w u : state_ok c s -> word_ok c s w -> derefs (mem_of s) w u -> word_ok c s u.
Proof.
  intros O Ww D. revert Ww. induction D as [b Eb|b w u Eb N D IH|w N]; intros Ww; auto. apply IH. eapply wf_cell; [apply O|exact Eb].
Qed.
Ltac drf D := eapply runs_bind; [apply (deref_is _ _ _ _ D)|]; intros ? ->.
(** the result is the error [o], or no error *)
Definition errs (o : option err) (r : chk (lres hst)) : Prop :=
  match o with Some e => r = Raise e | None => forall e, r <> Raise e end.
Lemma plainly_none o : runs o (fun _ => True) -> runs (plainly o) (errs None).
Proof. intros R. apply runs_plainly. eapply runs_imp; [exact R|]. intros r _ e. discriminate. Qed.

Lemma rd_positive_is fuel m w u : derefs m w u ->
  runs (Rd_Positive_Check fuel m w) (fun r => r = match u with
    | REF _ => Raise EInst | INT n => if n <? 0 then Raise ENegative else Val n | _ => Raise EInteger end).
Proof.
  intros D. unfold Rd_Positive_Check. drf D. destruct u; cbn; auto. destruct (n <? 0); reflexivity.
Qed.

Lemma Arg_errors bits c s no t x fuel nw tw : state_ok c s -> word_ok c s no -> word_ok c s t -> word_ok c s x ->
  (forall n, derefs (mem_of s) no (INT n) -> n - 1 < 2 ^ bits) -> LSSA c < 2 ^ bits -> 0 < bits ->
  derefs (mem_of s) no nw -> derefs (mem_of s) t tw ->
  runs (Arg_3 bits fuel c s no t x) (errs (arg_error nw tw)).
Proof.
  intros O Wn Wt Wx Hn HL Hb Dn Dt.
  assert (R := Arg_ok bits c s no t x fuel O Wn Wt Wx Hn HL Hb). revert R. unfold Arg_3.
  assert (Q := rd_positive_is fuel (mem_of s) no nw Dn).
  destruct (Rd_Positive_Check fuel (mem_of s) no) as [r| |]; [|destruct Q|intros; exact I]. cbn [runs] in Q. subst r.
  cbn [bind]. destruct nw as [a|a|a|i|a|a|i]; cbn [cbind arg_error]; try (intros _; reflexivity).
  destruct (i <? 0); cbn [cbind]; [intros _; reflexivity|].
  unfold Rd_Compound_Check. assert (Q := deref_is fuel _ _ _ Dt).
  destruct (deref fuel (mem_of s) t) as [u| |]; [|destruct Q|intros; exact I]. cbn [runs] in Q. subst u. cbn [bind].
  assert (K : forall o, runs o (right_answer c s (fun I => is_arg (I no) (I t) (I x))) -> (forall r, o = Ret r -> exists v, r = Val v) -> runs o (errs None)).
  { intros o R Hv. destruct o as [r| |]; auto. destruct (Hv r eq_refl) as [v ->]. intros e. discriminate. }
  assert (K2 : forall (n : nat) (a : addr) r, (if (i - 1) mod 2 ^ bits <? Z.of_nat n mod 2 ^ bits
     then do w <- rd_word (mem_of s) (a + (i - 1)); plainly (unify fuel c s x w) else Ret (Val No)) = Ret r -> exists v, r = Val v).
  { intros n a r Q. destruct (_ <? _); [|injection Q as <-; eauto]. destruct (rd_word _ _); try discriminate. cbn [bind] in Q.
    unfold plainly in Q. destruct (unify _ _ _ _ _); try discriminate. cbn in Q. injection Q as <-. eauto. }
  destruct tw as [a|a|a|j|a|a|j]; cbn [cbind fst snd]; try (intros _; reflexivity).
  - intros R. exact (K _ R (K2 2%nat a)).
  - destruct (rd_func (mem_of s) a) as [[g n]| |]; cbn [bind cbind fst snd]; [|intros []|auto]. intros R. exact (K _ R (K2 n (a + 1))).
Qed.

Lemma Functor_errors maxa c s t f a fuel v fw aw : state_ok c s -> word_ok c s t -> word_ok c s f -> word_ok c s a ->
  derefs (mem_of s) t (REF v) -> derefs (mem_of s) f fw -> derefs (mem_of s) a aw ->
  runs (Functor_3 maxa fuel c s t f a) (errs (functor_error maxa fw aw)).
Proof.
  intros O Wt Wf Wa Dt Df Da.
  assert (R := Functor_ok maxa c s t f a fuel O Wt Wf Wa). revert R. unfold Functor_3.
  assert (Q := deref_is fuel _ _ _ Dt). destruct (deref fuel (mem_of s) t) as [u| |]; [|destruct Q|intros; exact I]. cbn [runs] in Q. subst u. cbn [bind]. clear Dt.
  assert (Q := deref_is fuel _ _ _ Df). destruct (deref fuel (mem_of s) f) as [u| |]; [|destruct Q|intros; exact I]. cbn [runs] in Q. subst u. cbn [bind].
  assert (Q := rd_positive_is fuel (mem_of s) a aw Da).
  assert (NF : (forall b, fw <> FDV b) -> forall b, ~ derefs (mem_of s) f (FDV b)).
  { intros N b D. apply (N b). exact (derefs_det _ _ _ Df _ D). }
  assert (Pl : forall o (P : _ -> Prop), runs (plainly o) P -> runs (plainly o) (errs None)).
  { intros o P. unfold plainly. destruct o; cbn; auto. intros _ e. discriminate. }
  destruct fw as [b|b|b|i|b|b|i]; try (intros _; reflexivity).
  - intros R. specialize (R (NF ltac:(discriminate))). revert R.
    destruct (Rd_Positive_Check fuel (mem_of s) a) as [r| |]; [|destruct Q|intros; exact I]. cbn [runs] in Q. subst r.
    cbn [bind]. destruct aw as [z|z|z|j|z|z|n]; cbn [cbind functor_error]; try (intros _; reflexivity).
    destruct (n <? 0); cbn [cbind]; [intros _; reflexivity|]. destruct (maxa <? n); [intros _; reflexivity|].
    destruct ((i =? ATOM_DOT) && (n =? 2)).
    + destruct (Get_List fuel c s t) as [[[s1 md]|]| |]; cbn [bind runs]; auto; [destruct (room c s1 md 2)|]; intros _ e; discriminate.
    + destruct (0 <? n); [|apply Pl].
      destruct (room c s None (n + 1)); [|intros _ e; discriminate].
      destruct (Get_Structure fuel c s i (Z.to_nat n) t) as [[[s1 md]|]| |]; cbn [bind runs]; auto; intros _ e; discriminate.
  - intros R. specialize (R (NF ltac:(discriminate))). revert R.
    destruct (Rd_Positive_Check fuel (mem_of s) a) as [r| |]; [|destruct Q|intros; exact I]. cbn [runs] in Q. subst r.
    cbn [bind]. destruct aw as [z|z|z|j|z|z|n]; cbn [cbind functor_error]; try (intros _; reflexivity).
    destruct (n <? 0); cbn [cbind]; [intros _; reflexivity|]. destruct (maxa <? n); [intros _; reflexivity|].
    destruct (n =? 0); cbn [negb]; [apply Pl|intros _; reflexivity].
  - intros R. specialize (R (NF ltac:(discriminate))). revert R.
    destruct (Rd_Positive_Check fuel (mem_of s) a) as [r| |]; [|destruct Q|intros; exact I]. cbn [runs] in Q. subst r.
    cbn [bind]. destruct aw as [z|z|z|j|z|z|n]; cbn [cbind functor_error]; try (intros _; reflexivity).
    destruct (n <? 0); cbn [cbind]; [intros _; reflexivity|]. destruct (maxa <? n); [intros _; reflexivity|].
    destruct (n =? 0); cbn [negb]; [apply Pl|intros _; reflexivity].
Qed.

(** ** =../2 *)
Lemma ends_lst m w a y k u : ends m w k u -> derefs m w (LST a) -> m (a + 1) = Some (Word y) ->
  exists k', k = S k' /\ ends m y k' u.
Proof.
  intros E D Ey. inversion E; subst.
  - assert (Q := derefs_det _ _ _ D _ H). subst. destruct (H0 a eq_refl).
  - assert (Q := derefs_det _ _ _ D _ H). injection Q as <-. rewrite Ey in H0. injection H0 as <-. eauto.
Qed.
Lemma ends_other m w u k v : ends m w k u -> derefs m w v -> (forall a, v <> LST a) -> k = 0%nat /\ u = v.
Proof.
  intros E D N. inversion E; subst.
  - split; auto. exact (derefs_det _ _ _ H _ D).
  - assert (Q := derefs_det _ _ _ D _ H). subst. destruct (N a eq_refl).
Qed.
Lemma derefs_idem m w u : derefs m w u -> derefs m u u.
Proof. intros D. induction D; auto; [now apply drf_self|now apply drf_other]. Qed.
Lemma ends_derefs m w w' k u : ends m w k u -> derefs m w w' -> ends m w' k u.
Proof.
  intros E D. inversion E; subst.
  - assert (Q := derefs_det _ _ _ D _ H). subst. constructor; auto. eapply derefs_idem; eauto.
  - assert (Q := derefs_det _ _ _ D _ H). subst. eapply ends_cell; eauto. eapply derefs_idem; eauto.
Qed.

Lemma univ_args_errors nil c s0 k fuel : state_ok c s0 -> forall s w a n u, grows (mem_of s0) (mem_of s) -> hH s0 <= hH s ->
  w = LST a -> word_ok c s0 w -> ends (mem_of s0) w n u ->
  runs (univ_args nil k fuel c s w) (fun r =>
    match r with
    | Val (Some (n', _)) => n' = n /\ u = ATM nil
    | Val None => True
    | Raise e => u <> ATM nil /\ e = match u with REF _ => EInst | _ => EList end
    end).
Proof.
  intros O. induction k as [|k IH]; intros s w a n u G Hh -> Ww En; [exact I|]. cbn [univ_args].
  assert (D0 : derefs (mem_of s0) (LST a) (LST a)) by (apply drf_other; discriminate).
  destruct (read_facts c s0 (LST a) a O D0 Ww) as (x & y & Ex & Ey & Wx & Wy & Gx & Gy & T).
  destruct (ends_lst _ _ _ _ _ _ En D0 Ey) as (n' & -> & En').
  unfold rd_word at 1. rewrite (G _ _ Ex). cbn [bind].
  eapply runs_bind; [apply (deref_grown c s0 _ x fuel O G Wx)|]. intros x' (Dx & Wx').
  destruct (room c s None 1) eqn:Rm; [|exact Logic.I]. apply room_none in Rm.
  set (s1 := Global_Push s (Do_Copy_Of_Word x')).
  assert (G1 : grows (mem_of s0) (mem_of s1)).
  { intros z cc E. unfold s1, Global_Push. cbn [hm mm]. unfold store. destruct (Z.eqb_spec z (hH s)) as [->|Nz]; auto.
    destruct O as (_ & _ & F). rewrite F in E by lia. discriminate. }
  assert (H1 : hH s1 = hH s + 1) by reflexivity.
  unfold rd_word at 1. rewrite (G1 _ _ Ey). cbn [bind].
  eapply runs_bind; [apply (deref_grown c s0 _ y fuel O G1 Wy)|]. intros y' (Dy & Wy').
  assert (K : (forall b, y' <> LST b) -> n' = 0%nat /\ u = y') by (eapply ends_other; eauto).
  destruct (word_eqb y' (ATM nil)) eqn:Qy.
  - apply word_eqb_eq in Qy as ->. destruct (K ltac:(discriminate)) as [-> ->]. cbn. auto.
  - apply word_eqb_neq in Qy.
    destruct y' as [b|b|b|i|b|b|i]; try (destruct (K ltac:(discriminate)) as [-> ->]; cbn; auto).
    assert (E1 := ends_derefs _ _ _ _ _ En' Dy).
    eapply runs_bind; [apply (IH s1 (LST b) b n' u G1 ltac:(lia) eq_refl Wy' E1)|].
    intros [[[n2 s']|]|e]; cbn [cbind runs]; auto. intros [-> ->]. auto.
Qed.

Lemma check_list_is nil m k fuel n u : forall w, ends m w n u ->
  runs (List_Or_Partial_List nil k fuel m w) (fun b => b = match u with REF _ => true | _ => word_eqb u (ATM nil) end).
Proof.
  intros w E. revert k. induction E as [w u D N|w a y n u D Ey E IH]; intros [|k]; try exact I; cbn [List_Or_Partial_List]; drf D.
  - destruct u as [a|a|a|i|a|a|i]; try reflexivity. destruct (N a eq_refl).
  - unfold rd_word. rewrite Ey. cbn [bind]. apply IH.
Qed.

(** the list [l] has the head [h] and [n] more elements *)
Lemma Univ_errors nil maxa c s t l k fuel v a x h n u : state_ok c s -> word_ok c s t -> word_ok c s l ->
  derefs (mem_of s) t (REF v) -> derefs (mem_of s) l (LST a) -> mem_of s a = Some (Word x) -> derefs (mem_of s) x h ->
  ends (mem_of s) l (S n) u ->
  runs (Univ_2 nil maxa k fuel c s t l) (fun r => r = Val Fatal \/ errs (univ_error nil maxa h n u) r).
Proof.
  intros O Wt Wl Dt Dl Ex Dx En. unfold Univ_2. drf Dt. drf Dl.
  assert (Wa : word_ok c s (LST a)).
  { exact (derefs_wf c s l (LST a) O Wl Dl). }
  destruct (read_facts c s l a O Dl Wa) as (x1 & y & Ex1 & Ey & Wx & Wy & Gx & Gy & T).
  rewrite Ex in Ex1. injection Ex1 as <-.
  destruct (ends_lst _ _ _ _ _ _ En Dl Ey) as (n1 & Q & Ey'). injection Q as <-.
  rewrite (runs_rd c s a x O Ex). cbn [bind]. drf Dx.
  match goal with |- runs (match h with REF _ => _ | LST _ => ?B | STC _ => _ | ATM _ => _ | FLT _ => _ | FDV _ => _ | INT _ => _ end) _ =>
    assert (G : (forall b, h <> REF b) -> runs B (fun r => r = Val Fatal \/ errs (univ_error nil maxa h n u) r)) end.
  2: { destruct h as [b|b|b|i|b|b|i]; try (apply G; discriminate). right. reflexivity. }
  intros Nh. rewrite (runs_rd c s (a + 1) y O Ey). cbn [bind].
  eapply runs_bind; [apply (runs_deref c s y fuel O Wy)|]. intros y' (Dy & Wy' & _).
  assert (K : (forall b, y' <> LST b) -> n = 0%nat /\ u = y') by (eapply ends_other; eauto).
  destruct (word_eqb y' (ATM nil)) eqn:Qy.
  - apply word_eqb_eq in Qy as ->. destruct (K ltac:(discriminate)) as [-> ->].
    destruct h as [b|b|b|i|b|b|i]; cbn [runs univ_error]; rewrite ?word_eqb_refl; try (right; reflexivity); try (right; intros e; discriminate).
    destruct (Nh b eq_refl).
  - destruct y' as [b|b|b|i|b|b|i].
    + destruct (K ltac:(discriminate)) as [-> ->]. destruct h; try (destruct (Nh _ eq_refl)); right; reflexivity.
    + destruct (ends_lst _ _ _ (match mem_of s (b + 1) with Some (Word z) => z | _ => ATM 0 end) _ _ Ey' Dy) as (n2 & -> & E2).
      { destruct Wy' as [_ Ws]. destruct (Ws 1%nat ltac:(lia)) as [z Ez]. change (Z.of_nat 1) with 1 in Ez. now rewrite Ez. }
      assert (Ev := ends_derefs _ _ _ _ _ Ey' Dy).
      destruct h as [z|z|z|f|z|z|z]; try (destruct (Nh _ eq_refl)); try (right; reflexivity).
      cbn zeta. eapply runs_bind; [apply (univ_args_errors nil c s k fuel O (Hst (hm s) (hH s + 1)) (LST b) b (S n2) u); auto; [intros ? ?; auto|cbn; lia]|].
      intros [[[n3 s2]|]|e]; cbn [cbind].
      * intros [-> ->]. cbn [univ_error]. rewrite word_eqb_refl. destruct (maxa <? Z.of_nat (S n2)); [right; reflexivity|].
        destruct ((f =? ATOM_DOT) && Nat.eqb (S n2) 2); right; intros e; discriminate.
      * intros _. left. reflexivity.
      * intros [Nu ->]. right. cbn [runs univ_error]. apply word_eqb_neq in Nu.
        destruct u; try (rewrite Nu); reflexivity.
    + destruct (K ltac:(discriminate)) as [-> ->]. destruct h; try (destruct (Nh _ eq_refl)); right; reflexivity.
    + destruct (K ltac:(discriminate)) as [-> ->]. unfold univ_error. rewrite Qy. destruct h; try (destruct (Nh _ eq_refl)); right; reflexivity.
    + destruct (K ltac:(discriminate)) as [-> ->]. destruct h; try (destruct (Nh _ eq_refl)); right; reflexivity.
    + destruct (K ltac:(discriminate)) as [-> ->]. destruct h; try (destruct (Nh _ eq_refl)); right; reflexivity.
    + destruct (K ltac:(discriminate)) as [-> ->]. destruct h; try (destruct (Nh _ eq_refl)); right; reflexivity.
Qed.
(** the second argument is not a list cell, the first one is unbound *)
Lemma Univ_errors_end nil maxa c s t l k fuel v u : derefs (mem_of s) t (REF v) -> derefs (mem_of s) l u ->
  (forall a, u <> LST a) ->
  runs (Univ_2 nil maxa k fuel c s t l) (fun r => r = Raise
    match u with REF _ => EInst | _ => if word_eqb u (ATM nil) then EEmptyList else EList end).
Proof.
  intros Dt Dl N. unfold Univ_2. drf Dt. drf Dl. destruct u as [a|a|a|i|a|a|i]; try reflexivity; [destruct (N a eq_refl)|].
  destruct (word_eqb (ATM i) (ATM nil)); reflexivity.
Qed.
(** the first argument is a term *)
Lemma Univ_errors_term nil maxa c s t l k fuel w n u : state_ok c s -> word_ok c s t -> word_ok c s l ->
  derefs (mem_of s) t w -> (forall a, w <> REF a) -> ends (mem_of s) l n u ->
  runs (Univ_2 nil maxa k fuel c s t l)
    (errs (match u with REF _ => None | _ => if word_eqb u (ATM nil) then None else Some EList end)).
Proof.
  intros O Wt Wl Dt N En.
  unfold Univ_2. drf Dt.
  assert (G : forall car m a, runs (plainly (univ_list nil m fuel c s l car a)) (fun _ => True) ->
    runs (do b <- List_Or_Partial_List nil k fuel (mem_of s) l; if b then plainly (univ_list nil m fuel c s l car a) else Ret (Raise EList))
      (errs (match u with REF _ => None | _ => if word_eqb u (ATM nil) then None else Some EList end))).
  { intros car m a R. eapply runs_bind; [apply (check_list_is nil (mem_of s) k fuel n u l En)|]. intros b ->.
    assert (R' : runs (plainly (univ_list nil m fuel c s l car a)) (errs None)).
    { unfold plainly in *. destruct (univ_list nil m fuel c s l car a); cbn in *; auto. intros e. discriminate. }
    destruct u; cbn [word_eqb]; try exact R'; try reflexivity. destruct (_ =? _); [exact R'|reflexivity]. }
  assert (Ww : word_ok c s w).
  { exact (derefs_wf c s t w O Wt Dt). }
  assert (U : forall car m a, word_ok c s car -> glob c car -> words_at (mem_of s) a m -> a + Z.of_nat m <= LSSA c ->
    runs (plainly (univ_list nil m fuel c s l car a)) (fun _ => True)).
  { intros car m a Wc Gc Ws Ha. apply runs_plainly. eapply runs_imp; [apply (univ_list_ok nil m fuel c s l car a O Wl Wc Gc Ws Ha)|]. auto. }
  assert (P : 0 <= LSSA c) by (destruct O as (_ & P & _); lia).
  assert (W0 : words_at (mem_of s) 0 0) by (intros i Hi; lia).
  destruct w as [a|a|a|i|a|a|i].
  - destruct (N a eq_refl).
  - apply G. destruct Ww as [Q Ws]. apply U; auto; [exact Logic.I|discriminate|lia].
  - destruct (rd_func_ok c s a Ww) as (g & m & R & E & N1 & Ws & ND & Q). rewrite R. cbn [bind fst snd].
    apply G. apply U; auto; [exact Logic.I|discriminate|lia].
  - apply G. apply U; auto. discriminate.
  - apply G. apply U; auto. discriminate.
  - apply G. destruct Ww as [E Q]. apply U; auto; [exists (FDV a); exact E|]. intros b Eb. injection Eb as <-. lia.
  - apply G. apply U; auto. discriminate.
Qed.

(** ** setarg/4 *)
Lemma derefs_final m x w : derefs m x w -> (exists b, w = REF b /\ m b = Some (Word (REF b))) \/ forall b, w <> REF b.
Proof. induction 1; eauto. Qed.
Lemma set_cell_ok c s a old w w0 : state_ok c s -> mem_of s a = Some (Word old) -> old <> FDV a ->
  word_ok c s w0 -> derefs (mem_of s) w0 w -> glob c w ->
  forall t, state_ok c (Hst (St (store (mem_of s) a (Word w)) t) (hH s)).
Proof.
  intros O Ea Nf W0 D G t. assert (Ww := derefs_wf c s w0 w O W0 D). apply derefs_idem in D.
  assert (O1 := O). destruct O1 as (W & P & F).
  assert (Wd : forall b n, words_at (mem_of s) b n -> words_at (store (mem_of s) a (Word w)) b n).
  { intros b n Ws i Hi. unfold store. destruct (_ =? _); eauto. }
  assert (K : forall x, word_ok c s x -> wf_word (LSSA c) (store (mem_of s) a (Word w)) x).
  { intros x Wx. destruct x as [b|b|b|i|b|b|k]; cbn in *; auto.
    - unfold store. destruct (_ =? _); eauto.
    - destruct Wx as [Q1 Q2]. split; auto.
    - destruct Wx as (f & n & E & N' & Fd & Q & Ws). exists f, n. rewrite store_other by congruence. repeat split; auto.
    - destruct Wx as (d & E & N' & Q). exists d. rewrite store_other by congruence. auto.
    - destruct Wx as [E Q]. rewrite store_other; auto. intros ->. congruence. }
  assert (Dw : derefs (store (mem_of s) a (Word w)) (REF a) w).
  { destruct (word_eqb w (REF a)) eqn:Q.
    - apply word_eqb_eq in Q as ->. apply drf_self. apply store_same.
    - apply word_eqb_neq in Q. eapply drf_step; [apply store_same|exact Q|]. destruct (derefs_final _ _ _ D) as [(b & -> & Eb)|N].
      + apply drf_self. rewrite store_other by congruence. exact Eb.
      + now apply drf_other. }
  assert (Dr : forall x u, derefs (mem_of s) x u -> exists u', derefs (store (mem_of s) a (Word w)) x u').
  { intros x u Dx. induction Dx as [b Eb|b x u Eb N Dx IH|x N].
    - destruct (Z.eq_dec b a) as [->|Nb]; [eauto|]. exists (REF b). apply drf_self. now rewrite store_other.
    - destruct (Z.eq_dec b a) as [->|Nb]; [eauto|]. destruct IH as [u' D']. exists u'. eapply drf_step; [rewrite store_other by auto; exact Eb|exact N|exact D'].
    - exists x. now apply drf_other. }
  split; [|split; [exact P|]]; cbn [hm mm hH].
  - split.
    + intros x v E. unfold store in E. destruct (Z.eqb_spec x a) as [->|Nx]; eapply wf_pos; eauto.
    + intros x u E. unfold store in E. destruct (Z.eqb_spec x a) as [->|Nx].
      * injection E as <-. apply K; auto.
      * apply K. eapply wf_cell; eauto.
    + intros x b E. unfold store in E. destruct (Z.eqb_spec x a) as [->|Nx].
      * injection E as ->. right. apply G. reflexivity.
      * eapply wf_ref; eauto.
    + intros x u E. unfold store in E. destruct (Z.eqb_spec x a) as [->|Nx].
      * injection E as <-. destruct (Dr w w); eauto.
      * destruct (wf_drf _ _ W _ _ E) as [u' D']. eauto.
  - intros x Hx. rewrite store_other; auto. intros ->. rewrite F in Ea by lia. discriminate.
Qed.

Lemma untrail_one t m a o : Untrail (length t) (TOV a o :: t) m = Some (store m a o).
Proof.
  cbn [Untrail length]. destruct (Nat.leb_spec (S (length t)) (length t)); [lia|].
  destruct t; cbn [Untrail]; rewrite Nat.leb_refl; reflexivity.
Qed.
Lemma untrail_none t m : Untrail (length t) t m = Some m.
Proof. destruct t; cbn [Untrail]; now rewrite Nat.leb_refl. Qed.

Lemma args_at_det m w n a n' a' : args_at m w n a -> args_at m w n' a' -> n = n' /\ a = a'.
Proof.
  intros [[D ->]|(f & D & E)] [[D' ->]|(f' & D' & E')]; assert (Q := derefs_det _ _ _ D _ D'); try discriminate.
  - injection Q as ->. auto.
  - injection Q as Q. assert (a = a') by lia. subst. rewrite E in E'. injection E' as -> ->. auto.
Qed.

Lemma Setarg_ok tt ff c s no t v undo fuel nw tw vw uw :
  state_ok c s -> word_ok c s no -> word_ok c s t -> word_ok c s v -> word_ok c s undo ->
  derefs (mem_of s) no nw -> derefs (mem_of s) t tw -> derefs (mem_of s) v vw -> derefs (mem_of s) undo uw ->
  (forall i, nw = INT i -> i <= 2 ^ 64) -> LSSA c < 2 ^ 64 ->
  (forall b, vw = REF b -> b < LSSA c) ->
  (forall n a i, args_at (mem_of s) t n a -> (i < n)%nat -> mem_of s (a + Z.of_nat i) <> Some (Word (FDV (a + Z.of_nat i)))) ->
  runs (Setarg_4 tt ff fuel c s no t v undo) (fun r =>
    match r with
    | Raise e => setarg_error tt ff nw tw vw uw = Some e
    | Val r =>
      setarg_error tt ff nw tw vw uw = None /\
      match r with
      | Ok s' => exists n a i, args_at (mem_of s) t n a /\ nw = INT (Z.of_nat i + 1) /\ (i < n)%nat /\
          changed s s' (a + Z.of_nat i) vw /\ state_ok c s' /\
          (uw = ATM tt -> exists m, Untrail (length (tr (hm s))) (tr (hm s')) (mem_of s') = Some m /\
             forall x, older c x -> m x = mem_of s x) /\
          (uw <> ATM tt -> tr (hm s') = tr (hm s))
      | No => forall n a i, args_at (mem_of s) t n a -> nw = INT (Z.of_nat i + 1) -> (n <= i)%nat
      | _ => False
      end
    end).
Proof.
  intros O Wn Wt Wv Wu Dn Dt Dv Du Hn HL Gv NF. unfold Setarg_4, Rd_Compound_Check.
  assert (Wtw := derefs_wf c s t tw O Wt Dt).
  assert (Body : forall n a, args_at (mem_of s) t n a -> words_at (mem_of s) a n -> a + Z.of_nat n <= LSSA c ->
    (match tw with LST _ | STC _ => True | _ => False end) ->
    runs (check n0 <- Rd_Positive_Check fuel (mem_of s) no;
      let arg_no := (n0 - 1) mod 2 ^ 64 in
      do u <- deref fuel (mem_of s) undo;
      check undo <- match u with
                    | REF _ => Ret (Raise EInst)
                    | ATM i => if i =? tt then Ret (Val true) else if i =? ff then Ret (Val false)
                               else Ret (Raise EBoolean)
                    | _ => Ret (Raise EBoolean)
                    end;
      do w <- deref fuel (mem_of s) v;
      if negb undo && match w with ATM _ | INT _ => false | _ => true end then Ret (Raise EAtomic)
      else if Z.of_nat (fst (n, a)) <=? arg_no then Ret (Val No)
      else if undo then do s' <- Bind_OV c (hm s) (snd (n, a) + arg_no) w; Ret (Val (Ok (Hst s' (hH s))))
      else Ret (Val (Ok (Hst (St (store (mem_of s) (snd (n, a) + arg_no) (Word w)) (tr (hm s))) (hH s)))))
    (fun r =>
    match r with
    | Raise e => setarg_error tt ff nw tw vw uw = Some e
    | Val r =>
      setarg_error tt ff nw tw vw uw = None /\
      match r with
      | Ok s' => exists n a i, args_at (mem_of s) t n a /\ nw = INT (Z.of_nat i + 1) /\ (i < n)%nat /\
          changed s s' (a + Z.of_nat i) vw /\ state_ok c s' /\
          (uw = ATM tt -> exists m, Untrail (length (tr (hm s))) (tr (hm s')) (mem_of s') = Some m /\
             forall x, older c x -> m x = mem_of s x) /\
          (uw <> ATM tt -> tr (hm s') = tr (hm s))
      | No => forall n a i, args_at (mem_of s) t n a -> nw = INT (Z.of_nat i + 1) -> (n <= i)%nat
      | _ => False
      end
    end)).
  { intros n a At Ws Ha Kt. cbn [fst snd].
    assert (SE : forall e, setarg_error tt ff nw tw vw uw = e <-> match nw with
      | REF _ => Some EInst
      | INT i =>
        if i <? 0 then Some ENegative else
        match uw with
        | REF _ => Some EInst
        | ATM j =>
          if j =? tt then None
          else if j =? ff then match vw with ATM _ | INT _ => None | _ => Some EAtomic end
          else Some EBoolean
        | _ => Some EBoolean
        end
      | _ => Some EInteger
      end = e) by (intros e; destruct tw; try destruct Kt; reflexivity).
    eapply runs_bind; [apply (rd_positive_is fuel _ _ _ Dn)|]. intros r ->.
    destruct nw as [b|b|b|j|b|b|i]; cbn [cbind runs]; try (apply SE; reflexivity).
    destruct (Z.ltb_spec i 0) as [Hi|Hi]; cbn [cbind runs]; [apply SE; reflexivity|]. cbn zeta.
    drf Du.
    assert (Und : forall ud, match vw with ATM _ | INT _ => true | _ => ud end = true ->
       (setarg_error tt ff (INT i) tw vw uw = None) -> (ud = true <-> uw = ATM tt) ->
       runs (if Z.of_nat n <=? (i - 1) mod 2 ^ 64 then Ret (Val No)
         else if ud : bool then do s' <- Bind_OV c (hm s) (a + (i - 1) mod 2 ^ 64) vw; Ret (Val (Ok (Hst s' (hH s))))
         else Ret (Val (Ok (Hst (St (store (mem_of s) (a + (i - 1) mod 2 ^ 64) (Word vw)) (tr (hm s))) (hH s)))))
       (fun r =>
    match r with
    | Raise e => setarg_error tt ff (INT i) tw vw uw = Some e
    | Val r =>
      setarg_error tt ff (INT i) tw vw uw = None /\
      match r with
      | Ok s' => exists n a i0, args_at (mem_of s) t n a /\ INT i = INT (Z.of_nat i0 + 1) /\ (i0 < n)%nat /\
          changed s s' (a + Z.of_nat i0) vw /\ state_ok c s' /\
          (uw = ATM tt -> exists m, Untrail (length (tr (hm s))) (tr (hm s')) (mem_of s') = Some m /\
             forall x, older c x -> m x = mem_of s x) /\
          (uw <> ATM tt -> tr (hm s') = tr (hm s))
      | No => forall n a i0, args_at (mem_of s) t n a -> INT i = INT (Z.of_nat i0 + 1) -> (n <= i0)%nat
      | _ => False
      end
    end)).
    { intros ud _ SN Hud. specialize (Hn i eq_refl).
      assert (Pa : 0 <= a).
      { destruct n as [|n]; [destruct At as [[_ Q]|(f & D & E)]; [discriminate|]; destruct (derefs_wf c s t _ O Wt D) as (f' & n' & E' & L & _);
          rewrite E in E'; injection E' as -> <-; lia|].
        destruct (Ws 0%nat ltac:(lia)) as [z Ez]. rewrite Z.add_0_r in Ez. eapply wf_pos; [apply O|exact Ez]. }
      destruct (Z.leb_spec (Z.of_nat n) ((i - 1) mod 2 ^ 64)) as [L|L].
      - cbn [runs]. split; auto. intros n' a' i0 At' Q. injection Q as ->. destruct (args_at_det _ _ _ _ _ _ At At') as [<- <-].
        replace (Z.of_nat i0 + 1 - 1) with (Z.of_nat i0) in L by lia. rewrite Z.mod_small in L by lia. lia.
      - assert (I1 : 1 <= i).
        { destruct (Z.eq_dec i 0) as [->|]; [|lia]. exfalso. change ((0 - 1) mod 2 ^ 64) with (2 ^ 64 - 1) in L. lia. }
        rewrite Z.mod_small in * by lia. set (i0 := Z.to_nat (i - 1)). assert (Ei : i - 1 = Z.of_nat i0) by lia. rewrite Ei in *.
        assert (L0 : (i0 < n)%nat) by lia. destruct (Ws i0 L0) as [old Eo].
        assert (Nf : old <> FDV (a + Z.of_nat i0)) by (intros ->; exact (NF n a i0 At L0 Eo)).
        assert (St1 := fun tr => set_cell_ok c s (a + Z.of_nat i0) old vw v O Eo Nf Wv Dv (fun b E => Gv b E) tr).
        assert (Ch : forall tr, changed s (Hst (St (store (mem_of s) (a + Z.of_nat i0) (Word vw)) tr) (hH s)) (a + Z.of_nat i0) vw).
        { intros tr0. split; [apply store_same|]. split; [|reflexivity]. intros x Nx. now apply store_other. }
        destruct ud.
        + unfold Bind_OV. rewrite Eo. cbn [bind runs]. split; auto. exists n, a, i0.
          split; auto. split; [f_equal; lia|]. split; auto. split; [apply Ch|]. split; [apply St1|]. split.
          * intros _. cbn [hm tr mm]. destruct (Word_Needs_Trailing c (a + Z.of_nat i0)) eqn:T.
            -- eexists. split; [apply untrail_one|]. intros x _. unfold store. destruct (Z.eqb_spec x (a + Z.of_nat i0)) as [->|Nx]; auto.
            -- eexists. split; [apply untrail_none|]. intros x Ox. apply store_other. intros ->.
               unfold Word_Needs_Trailing, Is_A_Local_Adr in T. apply orb_false_iff in T as [T1 T2]. apply Z.ltb_ge in T1.
               destruct Ox as [Ox|Ox]; [lia|]. apply andb_false_iff in T2 as [T2|T2]; [apply Z.leb_gt in T2|apply Z.ltb_ge in T2]; lia.
          * intros Q. destruct (Q (proj1 Hud eq_refl)).
        + cbn [runs]. split; auto. exists n, a, i0.
          split; auto. split; [f_equal; lia|]. split; auto. split; [apply Ch|]. split; [apply St1|]. split.
          * intros Q. apply Hud in Q. discriminate.
          * intros _. reflexivity. }
    destruct uw as [b|b|b|j|b|b|j]; cbn [cbind bind runs]; try (apply SE; destruct (Z.ltb_spec i 0); [lia|reflexivity]).
    destruct (Z.eqb_spec j tt) as [->|Nj]; cbn [bind cbind].
    - drf Dv. cbn [negb andb]. apply (Und true); auto.
      + destruct vw; reflexivity.
      + apply SE. destruct (Z.ltb_spec i 0); [lia|]. destruct (Z.eqb_spec tt tt); [reflexivity|congruence].
      + split; auto.
    - destruct (Z.eqb_spec j ff) as [->|Nj2]; cbn [bind cbind runs].
      + drf Dv. cbn [negb andb].
        assert (Se : setarg_error tt ff (INT i) tw vw (ATM ff) = match vw with ATM _ | INT _ => None | _ => Some EAtomic end).
        { apply SE. destruct (Z.ltb_spec i 0); [lia|]. destruct (Z.eqb_spec ff tt); [congruence|]. destruct (Z.eqb_spec ff ff); [reflexivity|congruence]. }
        assert (Iff : false = true <-> ATM ff = ATM tt) by (split; congruence).
        destruct vw as [b|b|b|z|b|b|z]; try exact Se; apply (Und false); auto.
      + apply SE. destruct (Z.ltb_spec i 0); [lia|]. destruct (Z.eqb_spec j tt); [congruence|]. destruct (Z.eqb_spec j ff); [congruence|]. reflexivity. }
  eapply runs_bind; [eapply runs_bind; [apply (deref_is _ _ _ _ Dt)|]; intros x0 ->; instantiate (1 := fun r =>
    match tw with
    | REF _ => r = Raise EInst
    | LST a => r = Val (2%nat, a)
    | STC a => exists f n, mem_of s a = Some (Func f n) /\ r = Val (n, a + 1)
    | _ => r = Raise ECompound
    end)|].
  - destruct tw as [b|b|b|j|b|b|j]; cbn [runs]; auto. destruct (rd_func_ok c s b Wtw) as (f & n & R & E & _). rewrite R. cbn. eauto.
  - intros r Hr. destruct tw as [b|b|b|j|b|b|j]; try (subst r; reflexivity).
    + subst r. cbn [cbind]. apply Body; auto; [left; auto|apply Wtw|]. destruct Wtw as [Q _]. lia.
    + destruct Hr as (f & n & E & ->). destruct (rd_func_ok c s b Wtw) as (f' & n' & _ & E' & _ & Ws & _ & Q).
      rewrite E in E'. injection E' as <- <-. cbn [cbind]. apply Body; auto; [right; exists f; replace (b + 1 - 1) with b by lia; auto|lia].
Qed.
