(** term_variables/2: the list of the variables. *)
Require Import ZArith List Bool Lia PeanoNat.
Require Import Verif.Term_Model Verif.Term_Proofs Verif.Heap_Model Verif.Heap_Proofs Verif.Unify_Model Verif.Unify_Spec Verif.Unify_Proofs.
Require Import Verif.Binding_Model Verif.Binding_Proofs Verif.Copy_Model Verif.Copy_Spec Verif.Copy_Proofs Verif.Copy_Proofs2 Verif.Copy_Proofs3.
Import ListNotations.
Open Scope Z_scope.

(** the variables of a term *)
Lemma is_var_den m a u : is_var m a u -> den m (REF a) u.
Proof.
  intros [[-> E]|[-> E]]; [now apply den_var|]. apply den_ref with (w := FDV a); auto; [discriminate|constructor].
Qed.
Lemma occs_is_var L m (W : wf L m) :
  (forall w t, den m w t -> wf_word L m w -> forall a, In a (occs true t) -> exists u, is_var m a u) /\
  (forall b ts, den_args m b ts -> forall a, In a (flat_map (occs true) ts) -> exists u, is_var m a u).
Proof.
  apply (den_both m
   (fun w t _ => wf_word L m w -> forall a, In a (occs true t) -> exists u, is_var m a u)
   (fun b ts _ => forall a, In a (flat_map (occs true) ts) -> exists u, is_var m a u)); cbn [occs].
  - intros a E _ b [<-|[]]. exists (TVar a). left. auto.
  - intros b w t E N D IH _ a. apply IH. exact (wf_cell _ _ W _ _ E).
  - intros a [E _] b [<-|[]]. exists (TFdv a). right. auto.
  - intros ? ? ? ? ? [].
  - intros ? ? ? [].
  - intros ? ? ? [].
  - intros b t1 t2 D IH _ a. apply IH.
  - intros b f ts E D IH _ a. apply IH.
  - intros ? ? [].
  - intros b w t ts E D IHw Ds IH a. cbn [flat_map]. rewrite in_app_iff. intros [I|I]; auto.
    exact (IHw (wf_cell _ _ W _ _ E) a I).
Qed.

Definition tv_tail (nil : Z) (fuel : nat) (c : cfg) (s : hst) (l : word) (vs : list addr) : outcome (bres (ures * hst)) :=
  do x <- unify_var_list fuel c s l vs;
  match x with
  | (USucc, s, l) => do b <- Get_Nil nil fuel c s l; Ret (BRet (if fst b then USucc else UFail, snd b))
  | (r, s, _) => Ret (BRet (r, s))
  end.

Lemma wf_same L m m' : (forall x, m' x = m x) -> wf L m -> wf L m'.
Proof.
  intros Q W. assert (S1 : sub m m') by (intros x c; now rewrite Q).
  split.
  - intros a c E. rewrite Q in E. exact (wf_pos _ _ W a c E).
  - intros a w E. rewrite Q in E. exact (sub_wf_word _ _ _ _ S1 (wf_cell _ _ W a w E)).
  - intros a b E. rewrite Q in E. exact (wf_ref _ _ W a b E).
  - intros a w E. rewrite Q in E. destruct (wf_drf _ _ W a w E) as [d Dd]. exists d. exact (sub_derefs _ _ _ _ S1 Dd).
Qed.

(** one element: a list cell at [h] *)
Definition cons_mem (m : mem) (b h a : addr) : mem :=
  store (store (store m b (Word (LST h))) h (Word (REF a))) (h + 1) (Word (REF (h + 1))).
Lemma cons_wf L m b h a : wf L m -> m b = Some (Word (REF b)) -> m h = None -> m (h + 1) = None ->
  0 <= h -> h + 1 < L -> a < L -> (exists w, m a = Some (Word w)) -> wf L (cons_mem m b h a).
Proof.
  intros W Eb N1 N2 P1 P2 La [v Ea].
  set (m1 := store m (h + 1) (Word (REF (h + 1)))).
  assert (W1 : wf L m1) by (apply fresh_wf; auto; lia).
  set (m2 := store m1 h (Word (REF a))).
  assert (Ea1 : m1 a = Some (Word v)) by (unfold m1; rewrite store_other; auto; intros ->; congruence).
  assert (N1' : m1 h = None) by (unfold m1; rewrite store_other; auto; lia).
  assert (W2 : wf L m2).
  { apply fresh_wf; auto. right. split; [cbn; eauto|]. intros c Q. injection Q as ->. auto. }
  assert (Nb1 : b <> h) by congruence. assert (Nb2 : b <> h + 1) by congruence.
  assert (Eb2 : m2 b = Some (Word (REF b))) by (unfold m2, m1; now rewrite !store_other by auto).
  apply (wf_same L (store m2 b (Word (Do_Copy_Of_Word (LST h))))).
  - intros x. unfold cons_mem, m2, m1. cbn [Do_Copy_Of_Word].
    destruct (Z.eq_dec x b) as [->|X1]; [rewrite (store_same _ b), !store_other, store_same by auto; auto|].
    destruct (Z.eq_dec x h) as [->|X2]; [rewrite store_other, !store_same by lia; rewrite store_other, store_same by auto; auto|].
    destruct (Z.eq_dec x (h + 1)) as [->|X3]; [rewrite store_same, !store_other, store_same by auto; auto|].
    now rewrite !store_other by auto.
  - apply bind_wf; auto.
    + cbn. split; [lia|]. intros i Hi. destruct i as [|[|]]; [| |lia].
      * exists (REF a). unfold m2. rewrite Z.add_0_r. apply store_same.
      * exists (REF (h + 1)). unfold m2. change (Z.of_nat 1) with 1. rewrite store_other by lia. apply store_same.
    + intros c Q. discriminate.
    + apply drf_other. discriminate.
Qed.

Lemma tv_list L nil c : forall vs us s l b, derefs (mm (hm s)) l (REF b) -> mm (hm s) b = Some (Word (REF b)) ->
  Forall2 (is_var (mm (hm s))) vs us -> ~ In b vs ->
  (forall x, hH s <= x < hH s + 2 * Z.of_nat (length vs) -> mm (hm s) x = None) ->
  exists F s', (forall fuel, (F <= fuel)%nat -> tv_tail nil fuel c s l vs = Ret (BRet (USucc, s'))) /\
    hH s' = hH s + 2 * Z.of_nat (length vs) /\
    (forall x, x <> b -> ~ (hH s <= x < hH s') -> mm (hm s') x = mm (hm s) x) /\
    (exists v, mm (hm s') b = Some (Word v) /\ v <> REF b /\ den (mm (hm s')) v (list_term nil us)) /\
    (wf L (mm (hm s)) -> 0 <= hH s -> hH s' <= L -> (forall a, In a vs -> a < L) -> wf L (mm (hm s'))).
Proof.
  induction vs as [|a vs IH]; intros us s l b Dl Eb Fv Nb Free.
  - inversion Fv; subst. destruct (derefs_fun _ _ _ Dl) as [F HF].
    exists F, (Hst (Bind_UV c (hm s) b (ATM nil)) (hH s)). cbn [length]. split.
    { intros fuel Lf. unfold tv_tail. cbn [unify_var_list bind]. unfold Get_Nil. rewrite HF by auto. reflexivity. }
    split; [cbn; lia|]. cbn [hm hH mm Bind_UV]. split; [intros x N _; now rewrite store_other|]. split.
    + exists (ATM nil). rewrite store_same. split; auto. split; [discriminate|constructor].
    + intros W _ _ _. apply (bind_wf L (mm (hm s)) b (ATM nil) W Eb I); [intros x Q; discriminate|].
      apply drf_other. discriminate.
  - inversion Fv as [|? u ? us' Iv Fv']; subst. cbn [length] in *. rewrite Nat2Z.inj_succ in *.
    set (h := hH s) in *. set (m := mm (hm s)) in *.
    assert (N1 : m h = None) by (apply Free; lia). assert (N2 : m (h + 1) = None) by (apply Free; lia).
    set (s1 := Hst (St (cons_mem m b h a) (tr (Bind_UV c (hm s) b (LST h)))) (h + 1 + 1)).
    assert (K : forall x, x <> b -> x <> h -> x <> h + 1 -> mm (hm s1) x = m x).
    { intros x X1 X2 X3. cbn. unfold cons_mem. now rewrite !store_other by auto. }
    assert (Nb1 : b <> h) by congruence. assert (Nb2 : b <> h + 1) by congruence.
    assert (E1 : mm (hm s1) b = Some (Word (LST h))) by (cbn; unfold cons_mem; now rewrite !store_other, store_same by auto).
    assert (E2 : mm (hm s1) h = Some (Word (REF a))) by (cbn; unfold cons_mem; rewrite store_other, store_same by lia; auto).
    assert (E3 : mm (hm s1) (h + 1) = Some (Word (REF (h + 1)))) by (cbn; unfold cons_mem; now rewrite store_same).
    assert (Vs : forall x y, is_var m x y -> x <> b -> is_var (mm (hm s1)) x y).
    { intros x y [[-> Q]|[-> Q]] Nx; [left|right]; split; auto; rewrite K; auto; congruence. }
    destruct (IH us' s1 (REF (h + 1)) (h + 1)) as (F & s' & HF & Hh & Fr & (v & Ev & Nv & Dv) & Wf).
    + now apply drf_self.
    + exact E3.
    + assert (Fn : Forall2 (fun x y => is_var m x y /\ x <> b) vs us').
      { clear - Fv' Nb. induction Fv'; constructor; auto.
        - split; auto. intros ->. apply Nb. right. now left.
        - apply IHFv'. intros [Q|Q]; apply Nb; [now left|right; now right]. }
      clear - Fn Vs. induction Fn as [|x y vs us [Q1 Q2] _ IH]; constructor; auto.
    + intros I. assert (exists y, is_var m (h + 1) y) as [y [[_ Q]|[_ Q]]]; [|congruence|congruence].
      clear - Fv' I. induction Fv'; [destruct I|]. destruct I as [->|I]; eauto.
    + cbn [hH s1]. intros x Rx. rewrite K; [apply Free|..]; try lia. intros ->. rewrite Free in Eb by lia. discriminate.
    + destruct (derefs_fun _ _ _ Dl) as [F1 HF1]. cbn [hH s1] in *. exists (F + F1)%nat, s'. split.
      { intros fuel Lf. specialize (HF fuel ltac:(lia)). unfold tv_tail in *. cbn [unify_var_list].
        unfold Get_List. fold m. rewrite HF1 by lia. exact HF. }
      split; [lia|].
      assert (Eb' : mm (hm s') b = Some (Word (LST h))).
      { rewrite Fr; auto. intros Q. rewrite Free in Eb by lia. discriminate. }
      split; [|split].
      * intros x X1 X2. rewrite Fr by lia. apply K; lia.
      * exists (LST h). split; auto. split; [discriminate|]. cbn [list_term fold_right]. apply den_lst.
        econstructor; [rewrite Fr by lia; exact E2| |econstructor; [exact Ev|exact Dv|constructor]].
        apply is_var_den. destruct (Vs a u Iv ltac:(intros ->; apply Nb; now left)) as [[-> Q]|[-> Q]]; [left|right]; split; auto.
        -- rewrite Fr; auto; [intros ->; destruct Iv as [[_ Q']|[_ Q']]; congruence|]. intros R. destruct Iv as [[_ Q']|[_ Q']]; rewrite Free in Q' by lia; discriminate.
        -- rewrite Fr; auto; [intros ->; destruct Iv as [[_ Q']|[_ Q']]; congruence|]. intros R. destruct Iv as [[_ Q']|[_ Q']]; rewrite Free in Q' by lia; discriminate.
      * intros W P1 P2 La. apply Wf; try lia; [|intros x I; apply La; now right].
        apply cons_wf; auto; [lia|apply La; now left|]. destruct Iv as [[_ Q]|[_ Q]]; eauto.
Qed.

Theorem Term_Variables_correct L nil lim c s w l t b : wf L (mm (hm s)) -> den (mm (hm s)) w t -> wf_word L (mm (hm s)) w ->
  derefs (mm (hm s)) l (REF b) -> mm (hm s) b = Some (Word (REF b)) -> ~ In b (occs true t) ->
  (forall x, hH s <= x < hH s + 2 * Z.of_nat (length (occs true t)) -> mm (hm s) x = None) ->
  exists F r, (forall fuel, (F <= fuel)%nat -> Term_Variables_2 nil lim fuel c s w l = Ret r) /\
  match r with
  | BThrow => exists l', NoDup l' /\ incl l' (occs true t) /\ (lim < length l')%nat
  | BRet (r, s') => r = USucc /\ exists vs us, first_occ (occs true t) vs /\ (length vs <= lim)%nat /\
      Forall2 (is_var (mm (hm s))) vs us /\ den (mm (hm s')) l (list_term nil us) /\
      hH s' = hH s + 2 * Z.of_nat (length vs) /\
      (forall x, x <> b -> ~ (hH s <= x < hH s') -> mm (hm s') x = mm (hm s) x) /\
      (0 <= hH s -> hH s' <= L -> (forall a, In a vs -> a < L) -> wf L (mm (hm s')))
  end.
Proof.
  intros W D Ww Dl Eb Nb Free.
  destruct (proj1 (Treat_both (Collect_Variable lim) L (mm (hm s)) true W) w t D Ww []) as [F HF].
  pose proof (collect_run lim (occw true t) [] [] fo_nil ltac:(cbn; lia)) as Hc. rewrite occw_occs in Hc. cbn [app] in Hc.
  destruct (fold_visit (Collect_Variable lim) [] (occw true t)) as [vs|vs|vs] eqn:Q; [|destruct Hc|].
  - destruct Hc as [Fo Hl].
    assert (Hin : forall a, In a vs -> In a (occs true t)) by (intros a; apply (first_occ_In _ _ Fo)).
    assert (exists us, Forall2 (is_var (mm (hm s))) vs us) as [us Fv].
    { clear Fo Hl Q HF. induction vs as [|a vs IH]; [exists []; constructor|].
      destruct IH as [us Fv]; [intros; apply Hin; now right|].
      destruct (proj1 (occs_is_var L _ W) w t D Ww a (Hin a (or_introl eq_refl))) as [u Iu]. exists (u :: us). now constructor. }
    assert (Hle : (length vs <= length (occs true t))%nat) by (apply NoDup_incl_length; [exact (first_occ_NoDup _ _ Fo)|exact Hin]).
    destruct (tv_list L nil c vs us s l b Dl Eb Fv ltac:(auto) ltac:(intros; apply Free; lia)) as (F2 & s' & H2 & Hh & Fr & (v & Ev & Nv & Dv) & Wf).
    exists (F + F2)%nat, (BRet (USucc, s')). split.
    { intros fuel Lf. unfold Term_Variables_2. rewrite HF by lia. cbn [bind]. exact (H2 fuel ltac:(lia)). }
    split; auto. exists vs, us. split; auto. split; auto. split; auto. split; [|auto].
    clear - Dl Ev Nv Dv Eb Fr Free Hle Hh. remember (REF b) as d eqn:Ed. induction Dl as [a E|a w d E N Dd IH|w N].
    + injection Ed as ->. apply den_ref with (w := v); auto.
    + apply den_ref with (w := w); auto. rewrite Fr; auto; [intros ->; congruence|].
      intros R. rewrite Free in E by lia. discriminate.
    + destruct (N b Ed).
  - exists F, BThrow. split; [intros fuel Lf; unfold Term_Variables_2; now rewrite HF by lia|].
    destruct Hc as (l' & Nd & Hl & Il). exists l'. split; auto. split; auto. lia.
Qed.
