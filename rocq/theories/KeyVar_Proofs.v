(** Linking the variables of a key. *)
Require Import ZArith List Bool Lia.
Require Import Verif.Term_Model Verif.Term_Proofs Verif.Heap_Model Verif.Heap_Proofs Verif.Unify_Model Verif.Unify_Spec.
Require Import Verif.Copy_Model Verif.Copy_Spec Verif.Copy_Proofs Verif.Copy_Proofs2 Verif.KeyVar_Model.
Import ListNotations.
Open Scope Z_scope.

(** no structure without arguments *)
Fixpoint arity_ok (t : term) : bool :=
  match t with TCmp _ ts => negb (Nat.eqb (length ts) 0) && forallb arity_ok ts | _ => true end.

(** the memory m is m0 with some variables x bound to sg x *)
Record over (m0 : mem) (vars : list addr) (sg : addr -> addr) (m : mem) : Prop := Over {
  ov_mem : forall x, m x = if sg x =? x then m0 x else Some (Word (REF (sg x)));
  ov_sg : forall x, sg x <> x -> m0 x = Some (Word (REF x)) /\ In (sg x) vars;
  ov_vars : forall v, In v vars -> m0 v = Some (Word (REF v)) /\ sg v = v }.

Lemma over_idem m0 vars sg m x : over m0 vars sg m -> sg (sg x) = sg x.
Proof.
  intros [A B C]. destruct (Z.eq_dec (sg x) x) as [E|E]; [now rewrite E|]. apply C. now apply B.
Qed.
Lemma over_cell m0 vars sg m x c : over m0 vars sg m -> m0 x = Some c -> c <> Word (REF x) -> m x = Some c.
Proof.
  intros [A B C] E N. rewrite A. destruct (Z.eqb_spec (sg x) x); auto. destruct (B x n) as (E' & _). congruence.
Qed.
Lemma over_var m0 vars sg m x : over m0 vars sg m -> m0 x = Some (Word (REF x)) -> derefs m (REF x) (REF (sg x)).
Proof.
  intros O E. destruct (Z.eq_dec (sg x) x) as [Q|Q].
  - rewrite Q. apply drf_self. destruct O as [A B C]. rewrite A. destruct (Z.eqb_spec (sg x) x); congruence.
  - apply drf_step with (w := REF (sg x)); [|congruence|].
    + destruct O as [A B C]. rewrite A. destruct (Z.eqb_spec (sg x) x); congruence.
    + apply drf_self. pose proof (over_idem _ _ _ _ x O) as I. destruct O as [A B C]. rewrite A, I.
      rewrite Z.eqb_refl. apply C. now apply B.
Qed.
Lemma over_den m0 vars sg m (O : over m0 vars sg m) :
  (forall w t, den m0 w t -> den m w (ren sg t)) /\ (forall a ts, den_args m0 a ts -> den_args m a (map (ren sg) ts)).
Proof.
  apply (den_both m0 (fun w t _ => den m w (ren sg t)) (fun a ts _ => den_args m a (map (ren sg) ts))); cbn [ren map]; intros; try now constructor.
  - destruct (Z.eq_dec (sg a) a) as [Q|Q].
    + rewrite Q. apply den_var. rewrite (ov_mem _ _ _ _ O), Q, Z.eqb_refl. exact e.
    + apply den_ref with (w := REF (sg a)); [|congruence|].
      * rewrite (ov_mem _ _ _ _ O). destruct (Z.eqb_spec (sg a) a); congruence.
      * apply den_var. rewrite (ov_mem _ _ _ _ O), (over_idem _ _ _ _ a O), Z.eqb_refl.
        apply (ov_vars _ _ _ _ O). now apply (ov_sg _ _ _ _ O).
  - apply den_ref with (w := w); [|exact n|exact H]. apply (over_cell m0 vars sg); auto. congruence.
  - apply den_flt. apply (over_cell m0 vars sg); auto. discriminate.
  - apply den_stc; [|exact H]. rewrite map_length. apply (over_cell m0 vars sg); auto. discriminate.
  - destruct (Z.eq_dec (sg a) a) as [Q|Q].
    + apply dena_cons with (w := w); auto. destruct O as [A B C]. rewrite A. destruct (Z.eqb_spec (sg a) a); congruence.
    + destruct (ov_sg _ _ _ _ O a Q) as (E & I). rewrite E in e. injection e as <-.
      apply dena_cons with (w := REF (sg a)); auto.
      * destruct O as [A B C]. rewrite A. destruct (Z.eqb_spec (sg a) a); congruence.
      * inversion H as [x E1 E2|x w' t' E1 N1 D1| | | | | |]; subst.
        -- exfalso. destruct O as [A B C]. rewrite A in E1. destruct (Z.eqb_spec (sg a) a); congruence.
        -- assert (w' = REF (sg a)) as ->; [|exact D1]. destruct O as [A B C]. rewrite A in E1. destruct (Z.eqb_spec (sg a) a); congruence.
Qed.

(** what linking does, on the list of the occurrences *)
Section Absorb.
Variables (lim save : nat).
Definition lst := (list addr * nat * (addr -> addr))%type.
Definition absorb (q : option lst) (x : addr) : option lst :=
  match q with
  | None => None
  | Some (vars, next, sg) =>
    if existsb (fun b => b =? sg x) vars then q
    else if Nat.ltb next save then Some (vars, S next, fun y => if y =? x then nth next vars 0 else sg y)
    else if Nat.leb lim (length vars) then None
    else Some (vars ++ [x], next, sg)
  end.
Lemma absorb_none l : fold_left absorb l None = None.
Proof. induction l; auto. Qed.

Definition okq (m0 : mem) (q : lst) (m : mem) : Prop :=
  over m0 (fst (fst q)) (snd q) m /\ (save <= length (fst (fst q)))%nat.

Lemma absorb_step m0 vars next sg m x : okq m0 (vars, next, sg) m -> m0 x = Some (Word (REF x)) ->
  exists r, Link_Key_Var lim save (Kst m vars next) (sg x) = Ret r /\
  match absorb (Some (vars, next, sg)) x with
  | Some (vars', next', sg') => exists m', r = Go (Kst m' vars' next') /\ okq m0 (vars', next', sg') m'
  | None => r = Throw (Kst m vars next)
  end.
Proof.
  intros (O & Sv) E. cbn [fst snd] in *. unfold Link_Key_Var, absorb. cbn [k_vars k_next k_m].
  destruct (existsb (fun b => b =? sg x) vars) eqn:Ex.
  { eexists. split; [reflexivity|]. exists m. split; auto. split; auto. }
  assert (Nv : forall v, In v vars -> v <> sg x).
  { intros v I ->. assert (X : existsb (fun b => b =? sg x) vars = true) by (apply existsb_exists; exists (sg x); split; auto; apply Z.eqb_refl). congruence. }
  assert (Q : sg x = x) by (destruct (Z.eq_dec (sg x) x) as [Q|Q]; auto; destruct (ov_sg _ _ _ _ O x Q) as (_ & I); destruct (Nv _ I eq_refl)).
  rewrite Q in *. destruct (Nat.ltb_spec next save) as [Lt|Ge].
  - assert (Ln : (next < length vars)%nat) by lia.
    rewrite (nth_error_nth' vars 0 Ln). set (v := nth next vars 0).
    assert (Iv : In v vars) by (apply nth_In; exact Ln). destruct (ov_vars _ _ _ _ O v Iv) as (Ev & Sv').
    assert (Em : m v = Some (Word (REF v))) by (rewrite (ov_mem _ _ _ _ O), Sv', Z.eqb_refl; exact Ev).
    unfold rd_word. rewrite Em. cbn [bind]. eexists. split; [reflexivity|]. eexists. split; [reflexivity|]. split; [|exact Sv].
    cbn [fst snd]. constructor.
    + intros y. unfold store. destruct (Z.eqb_spec y x) as [->|Ny].
      * destruct (Z.eqb_spec v x) as [Q'|_]; [destruct (Nv v Iv Q')|reflexivity].
      * apply (ov_mem _ _ _ _ O).
    + intros y. destruct (Z.eqb_spec y x) as [->|Ny]; [auto|apply (ov_sg _ _ _ _ O)].
    + intros u Iu. destruct (Z.eqb_spec u x) as [->|Ny]; [destruct (Nv x Iu eq_refl)|apply (ov_vars _ _ _ _ O u Iu)].
  - destruct (Nat.leb lim (length vars)); [eexists; split; reflexivity|].
    eexists. split; [reflexivity|]. exists m. split; [reflexivity|]. split; cbn [fst snd].
    + constructor.
      * apply (ov_mem _ _ _ _ O).
      * intros y Ny. destruct (ov_sg _ _ _ _ O y Ny). split; auto. apply in_or_app. auto.
      * intros u Iu. apply in_app_or in Iu. destruct Iu as [Iu|[<-|[]]]; [apply (ov_vars _ _ _ _ O u Iu)|auto].
    + rewrite app_length. lia.
Qed.

Definition result (m0 : mem) (q : option lst) (r : visit kst) : Prop :=
  match q with
  | Some (vars', next', sg') => exists m', r = Go (Kst m' vars' next') /\ okq m0 (vars', next', sg') m'
  | None => exists s, r = Throw s
  end.

Lemma Link_both m0 :
  (forall w t, den m0 w t -> arity_ok t = true -> nofd t = true -> forall vars next sg m, okq m0 (vars, next, sg) m ->
     exists F r, (forall fuel, (F <= fuel)%nat -> Link_Vars lim save fuel (Kst m vars next) w = Ret r) /\
       result m0 (fold_left absorb (occs false t) (Some (vars, next, sg))) r) /\
  (forall a ts, den_args m0 a ts -> ts <> [] -> forallb arity_ok ts = true -> forallb nofd ts = true ->
     forall vars next sg m, okq m0 (vars, next, sg) m ->
     exists F r, (forall fuel, (F <= fuel)%nat -> link_args (Link_Vars lim save fuel) (length ts) (Kst m vars next) a = Ret r) /\
       result m0 (fold_left absorb (flat_map (occs false) ts) (Some (vars, next, sg))) r).
Proof.
  apply (den_both m0
    (fun w t _ => arity_ok t = true -> nofd t = true -> forall vars next sg m, okq m0 (vars, next, sg) m ->
     exists F r, (forall fuel, (F <= fuel)%nat -> Link_Vars lim save fuel (Kst m vars next) w = Ret r) /\
       result m0 (fold_left absorb (occs false t) (Some (vars, next, sg))) r)
    (fun a ts _ => ts <> [] -> forallb arity_ok ts = true -> forallb nofd ts = true ->
     forall vars next sg m, okq m0 (vars, next, sg) m ->
     exists F r, (forall fuel, (F <= fuel)%nat -> link_args (Link_Vars lim save fuel) (length ts) (Kst m vars next) a = Ret r) /\
       result m0 (fold_left absorb (flat_map (occs false) ts) (Some (vars, next, sg))) r)).
  - intros a E _ _ vars next sg m O. cbn [occs fold_left].
    destruct (absorb_step m0 vars next sg m a O E) as (r & Er & Hr).
    destruct (derefs_fun _ _ _ (over_var _ _ _ _ a (proj1 O) E)) as (F & K).
    exists (S F), r. split.
    + intros [|f] Hf; [lia|]. cbn [Link_Vars k_m]. rewrite K by lia. exact Er.
    + unfold result. destruct (absorb (Some (vars, next, sg)) a) as [[[v n] s]|]; eauto.
  - intros a w t E N D IH Ao Nf vars next sg m O. destruct (IH Ao Nf vars next sg m O) as (F & r & K & Hr).
    assert (Em : m a = Some (Word w)) by (apply (over_cell m0 vars sg m a (Word w) (proj1 O) E); congruence).
    destruct (den_derefs m w _ (proj1 (over_den _ _ _ _ (proj1 O)) _ _ D)) as (w' & Dw & _).
    destruct (derefs_fun _ _ _ Dw) as [F1 H1].
    destruct (derefs_fun _ _ _ (drf_step m a w w' Em N Dw)) as [F2 H2].
    exists (S (F + F1 + F2)), r. split; [|exact Hr]. intros [|f] Lf; [lia|].
    specialize (K (S f)). cbn [Link_Vars k_m] in *. rewrite H1 in K by lia. rewrite H2 by lia. apply K. lia.
  - intros a _ Nf. discriminate.
  - intros b d _ _ _ vars next sg m O. exists 2%nat, (Go (Kst m vars next)). split; [intros [|[|f]] Lf; try lia; reflexivity|].
    exists m. auto.
  - intros n _ _ vars next sg m O. exists 2%nat, (Go (Kst m vars next)). split; [intros [|[|f]] Lf; try lia; reflexivity|].
    exists m. auto.
  - intros n _ _ vars next sg m O. exists 2%nat, (Go (Kst m vars next)). split; [intros [|[|f]] Lf; try lia; reflexivity|].
    exists m. auto.
  - intros b t1 t2 D IH Ao Nf vars next sg m O.
    destruct (IH ltac:(discriminate) Ao Nf vars next sg m O) as (F & r & K & Hr).
    exists (S (S F)), r. split; [|exact Hr]. intros [|[|f]] Lf; try lia. specialize (K (S f) ltac:(lia)). exact K.
  - intros b f ts E D IH Ao Nf vars next sg m O. cbn [arity_ok] in Ao. apply andb_true_iff in Ao. destruct Ao as (Nn & Ao).
    destruct ts as [|t ts]; [discriminate|].
    destruct (IH ltac:(discriminate) Ao Nf vars next sg m O) as (F & r & K & Hr).
    assert (Em : m b = Some (Func f (length (t :: ts)))) by (apply (over_cell m0 vars sg m b _ (proj1 O) E); discriminate).
    exists (S (S F)), r. split; [|exact Hr]. intros [|[|f']] Lf; try lia. specialize (K (S f') ltac:(lia)).
    cbn [Link_Vars deref bind k_m]. unfold rd_func. rewrite Em. cbn [bind snd]. exact K.
  - congruence.
  - intros b w t ts E D IHw Ds IH _ Ao Nf vars next sg m O. cbn [forallb] in Ao, Nf.
    apply andb_true_iff in Ao, Nf. destruct Ao as (A1 & A2), Nf as (N1 & N2).
    assert (exists F r w', m b = Some (Word w') /\ (forall fuel, (F <= fuel)%nat -> Link_Vars lim save fuel (Kst m vars next) w' = Ret r) /\
      result m0 (fold_left absorb (occs false t) (Some (vars, next, sg))) r) as (F & r & w' & Em & K & Hr).
    { destruct (Z.eq_dec (sg b) b) as [Q|Q].
      - destruct (IHw A1 N1 vars next sg m O) as (F & r & K & Hr). exists F, r, w. repeat split; auto.
        rewrite (ov_mem _ _ _ _ (proj1 O)). cbn [fst snd]. rewrite Q, Z.eqb_refl. exact E.
      - destruct (ov_sg _ _ _ _ (proj1 O) b Q) as (E' & Iv). cbn [fst snd] in *. rewrite E' in E. injection E as <-.
        assert (t = TVar b) as -> by (inversion D; subst; congruence). cbn [occs fold_left absorb].
        assert (Ex : existsb (fun v => v =? sg b) vars = true) by now apply existsb_In.
        destruct (ov_vars _ _ _ _ (proj1 O) (sg b) Iv) as (Ev & Sv). cbn [fst snd] in *.
        assert (Mv : m (sg b) = Some (Word (REF (sg b)))) by (rewrite (ov_mem _ _ _ _ (proj1 O)); cbn [fst snd]; rewrite Sv, Z.eqb_refl; exact Ev).
        destruct (derefs_fun _ _ _ (drf_self m _ Mv)) as [F HF].
        exists (S F), (Go (Kst m vars next)), (REF (sg b)). split; [|split].
        + rewrite (ov_mem _ _ _ _ (proj1 O)). cbn [fst snd]. destruct (Z.eqb_spec (sg b) b); congruence.
        + intros [|f] Lf; [lia|]. cbn [Link_Vars k_m]. rewrite HF by lia. cbn [bind]. unfold Link_Key_Var. cbn [k_vars]. now rewrite Ex.
        + rewrite Ex. exists m. auto. }
    destruct ts as [|t' ts].
    + exists F, r. split.
      * intros f Lf. cbn [link_args length k_m]. unfold rd_word. rewrite Em. cbn [bind]. apply K. lia.
      * cbn [flat_map]. now rewrite app_nil_r.
    + change (flat_map (occs false) (t :: t' :: ts)) with (occs false t ++ flat_map (occs false) (t' :: ts)).
      rewrite fold_left_app. change (length (t :: t' :: ts)) with (S (S (length ts))).
      destruct (fold_left absorb (occs false t) (Some (vars, next, sg))) as [[[v n] s]|] eqn:Q.
      * destruct Hr as (m' & -> & O'). destruct (IH ltac:(discriminate) A2 N2 v n s m' O') as (F2 & r2 & K2 & Hr2).
        exists (F + F2)%nat, r2. split; [|exact Hr2]. intros f Lf. specialize (K2 f ltac:(lia)).
        change (length (t' :: ts)) with (S (length ts)) in K2. cbn [link_args k_m] in *. unfold rd_word at 1. rewrite Em. cbn [bind].
        rewrite K by lia. cbn [bind]. exact K2.
      * destruct Hr as (s' & ->). exists F, (Throw s'). split; [|rewrite absorb_none; exists s'; reflexivity].
        intros f Lf. cbn [link_args k_m]. unfold rd_word at 1. rewrite Em. cbn [bind]. rewrite K by lia. reflexivity.
Qed.
End Absorb.

(** the whole of a key: the i-th new variable is linked to the i-th of the table, or added *)
Lemma absorb_all lim vars0 (Lv : (length vars0 <= lim)%nat) : forall l xs, first_occ l xs ->
  (forall x, In x l -> ~ In x vars0) ->
  match fold_left (absorb lim (length vars0)) l (Some (vars0, O, fun x => x)) with
  | Some (vars, next, sg) => vars = vars0 ++ skipn (length vars0) xs /\ next = Nat.min (length xs) (length vars0) /\
      (length xs <= lim)%nat /\
      (forall j x, nth_error xs j = Some x -> nth_error vars j = Some (sg x)) /\ (forall x, ~ In x xs -> sg x = x)
  | None => (lim < length xs)%nat
  end.
Proof.
  induction 1 as [|l xs a Fo IH I|l xs a Fo IH I]; intros Nv.
  - cbn [fold_left length]. rewrite skipn_nil, app_nil_r. repeat split; auto; [lia|]. intros [|j] x E; discriminate.
  - specialize (IH (fun x Ix => Nv x (in_or_app _ _ _ (or_introl Ix)))). rewrite fold_left_app. cbn [fold_left].
    destruct (fold_left _ l _) as [[[vars next] sg]|]; [|exact IH]. cbn [absorb].
    destruct IH as (E1 & E2 & E3 & E4 & E5). apply In_nth_error in I. destruct I as (j & Ej).
    assert (X : existsb (fun b => b =? sg a) vars = true) by (apply existsb_In; eapply nth_error_In; eauto).
    rewrite X. auto.
  - specialize (IH (fun x Ix => Nv x (in_or_app _ _ _ (or_introl Ix)))). rewrite fold_left_app. cbn [fold_left].
    rewrite app_length. cbn [length].
    destruct (fold_left _ l _) as [[[vars next] sg]|]; [|cbn [absorb]; lia]. cbn [absorb].
    destruct IH as (E1 & E2 & E3 & E4 & E5). pose proof (E5 a I) as Sa. rewrite Sa.
    assert (Na : ~ In a vars).
    { rewrite E1. intros X. apply in_app_or in X. destruct X as [X|X]; [refine (Nv a _ X); apply in_or_app; right; now left|].
      apply I. clear - X. rewrite <- (firstn_skipn (length vars0) xs). apply in_or_app. now right. }
    assert (X : existsb (fun b => b =? a) vars = false).
    { destruct (existsb (fun b => b =? a) vars) eqn:X; auto. apply existsb_In in X. contradiction. }
    rewrite X. destruct (Nat.ltb_spec next (length vars0)) as [Lt|Ge].
    + assert (Lx : (length xs < length vars0)%nat) by lia.
      repeat split.
      * rewrite E1. rewrite !skipn_all2; auto; rewrite ?app_length; cbn [length]; lia.
      * lia.
      * lia.
      * intros j x Ej. destruct (Z.eqb_spec x a) as [->|Nx].
        -- destruct (Nat.lt_ge_cases j (length xs)) as [Lj|Gj].
           ++ rewrite nth_error_app1 in Ej by exact Lj. exfalso. apply I. eapply nth_error_In; eauto.
           ++ rewrite nth_error_app2 in Ej by exact Gj. assert (j = length xs) as ->.
              { destruct (j - length xs)%nat as [|k] eqn:Q; [lia|]. destruct k; discriminate. }
              replace next with (length xs) by lia. apply nth_error_nth'. rewrite E1, app_length. lia.
        -- destruct (Nat.lt_ge_cases j (length xs)) as [Lj|Gj].
           ++ rewrite nth_error_app1 in Ej by exact Lj. auto.
           ++ rewrite nth_error_app2 in Ej by exact Gj. destruct (j - length xs)%nat as [|[|k]]; cbn in Ej; congruence.
      * intros x Nx. destruct (Z.eqb_spec x a) as [->|Na']; [|apply E5; intros Q; apply Nx; apply in_or_app; auto].
        exfalso. apply Nx. apply in_or_app. right. now left.
    + assert (Lx : (length vars0 <= length xs)%nat) by lia.
      assert (Lv' : length vars = length xs) by (rewrite E1, app_length, skipn_length; lia).
      destruct (Nat.leb_spec lim (length vars)); [lia|]. repeat split.
      * rewrite E1, skipn_app. replace (length vars0 - length xs)%nat with O by lia. cbn [skipn]. now rewrite app_assoc.
      * lia.
      * lia.
      * intros j x Ej. destruct (Nat.lt_ge_cases j (length xs)) as [Lj|Gj].
        -- rewrite nth_error_app1 in Ej by exact Lj. rewrite nth_error_app1 by lia. auto.
        -- rewrite nth_error_app2 in Ej by exact Gj. rewrite nth_error_app2 by lia. rewrite Lv'.
           destruct (j - length xs)%nat as [|[|k]]; cbn in *; try discriminate. injection Ej as <-. now rewrite Sa.
      * intros x Nx. apply E5. intros Q. apply Nx. apply in_or_app. auto.
Qed.
Lemma first_occ_ex : forall l, exists r, first_occ l r.
Proof.
  intros l. pattern l. apply rev_ind; [exists []; constructor|]. intros a l' (r & Fo).
  destruct (in_dec Z.eq_dec a r); [exists r; now apply fo_old|exists (r ++ [a]); now apply fo_new].
Qed.
Lemma first_occ_map f l r : first_occ l r -> (forall a b, In a l -> In b l -> f a = f b -> a = b) ->
  first_occ (map f l) (map f r).
Proof.
  induction 1 as [|l r a Fo IH I|l r a Fo IH I]; intros Ij; [constructor| |];
    rewrite !map_app; cbn [map]; (assert (Ij' : forall a b, In a l -> In b l -> f a = f b -> a = b) by (intros; apply Ij; auto; apply in_or_app; auto)).
  - apply fo_old; [auto|]. now apply in_map.
  - apply fo_new; [auto|]. intros X. apply in_map_iff in X. destruct X as (b & E & Ib). apply I.
    assert (b = a) as <-; auto. apply Ij; auto; apply in_or_app; [left; now apply (first_occ_In _ _ Fo)|right; now left].
Qed.
