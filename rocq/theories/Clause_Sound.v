(** C60: an execution of the code of a term gives values of the variables. *)
Require Import List Bool Arith Lia Permutation.
Require Import Verif.RegAlloc_Model Verif.RegAlloc_Spec Verif.RegAlloc_Graph Verif.Clause_Model Verif.Clause_Spec Verif.Clause_Exec Verif.Clause_Shape.
Import ListNotations.

Section Values.
Variable V : Type.
Variable cst : const -> V.
Variable fn : nat -> list V -> V.
Variable fl : flags.
Variable kd : nat -> kind.
Variable N0 : nat.
Hypothesis kd_inj : forall n n' y, n < N0 -> n' < N0 -> kd n = KY y -> kd n' = KY y -> n = n'.
Notation eval := (eval V cst fn).
Notation get_y := (get_y V).
Notation me := (me V).
Notation ms := (ms V).
Notation mg := (mg V).

Lemma eval_ext : forall e e' t, (forall n, In n (vars t) -> e n = e' n) -> eval e t = eval e' t.
Proof.
  intros e e'. induction t as [n|b|f l IH] using tm_size_ind; intros H; cbn; [apply H; left; reflexivity|reflexivity|]. f_equal. apply map_ext_in. intros t Ht. apply (IH t Ht). intros n Hn. apply H. rewrite vars_Tf. apply (lvars_in l t n Ht Hn).
Qed.
Fixpoint sub_vals (e : nat -> V) (l : fargs) : list V :=
  match l with
  | Fnil => []
  | Fcons (FV n) l => e n :: sub_vals e l
  | Fcons (FC b) l => cst b :: sub_vals e l
  | Fcons (FX x _) l => e x :: sub_vals e l
  | Flast f _ l => [fn f (sub_vals e l)]
  end.
Lemma sub_vals_ext : forall e e' l, (forall n, In n (fvars l) \/ In n (fx l) -> e n = e' n) -> sub_vals e l = sub_vals e' l.
Proof. intros e e'. induction l as [|[n|b|x t] l IH|f n l IH]; intros H; cbn in *; [reflexivity| | | |]; f_equal; auto; try (apply IH; intros m [Q|Q]; apply H; auto). f_equal. apply IH. exact H. Qed.
Lemma sub_vals_len : forall e l, length (sub_vals e l) = flen l.
Proof. intros e. induction l as [|[n|b|x t] l IH|f n l IH]; cbn; auto. Qed.
Lemma Flat_vals : forall hb l s fa ax s', Flat hb l s fa ax s' -> forall e, (forall x t, In (x, t) ax -> e x = eval e t) -> sub_vals e fa = map (eval e) l.
Proof.
  induction 1 as [s|n l s fa ax s' H IH|b l s fa ax s' H IH|a l s x s1 fa ax s' E H IH|f l s fa ax s' H IH]; intros e HE; cbn; auto.
  - f_equal. auto.
  - f_equal. auto.
  - f_equal; [apply HE; left; reflexivity|]. apply IH. intros y t Ht. apply HE. right. exact Ht.
  - rewrite (IH e HE). reflexivity.
Qed.

(** ** The values in the registers *)
Definition envok (q : mach V) : Prop := me q <> Left V /\ forall n y, n < N0 -> kd n = KY y -> get_y q y <> None.
(** [L]: the variables x(_) which are of use; [P]: registers for subterms *)
Record agree (L P : nat -> Prop) (s : st) (e : nat -> V) (m : reg -> V) (q : mach V) : Prop := Agr {
  ag_x : forall n, n < N0 -> kd n = KX -> known s n -> L n -> m (T n) = e n;
  ag_y : forall n y, n < N0 -> kd n = KY y -> known s n -> get_y q y = Some (e n);
  ag_p : forall x, P x -> m (T x) = e x }.
Definition upd (e : nat -> V) (n : nat) (v : V) : nat -> V := fun k => if k =? n then v else e k.
Lemma upd_same : forall e n v, upd e n v n = v.
Proof. intros. unfold upd. rewrite Nat.eqb_refl. reflexivity. Qed.
Lemma upd_other : forall e n v k, k <> n -> upd e n v k = e k.
Proof. intros e n v k H. unfold upd. destruct (Nat.eqb_spec k n); [contradiction|reflexivity]. Qed.
Lemma write_same : forall (B : Type) m x (v : B), write B m x v x = v.
Proof. intros. unfold write. rewrite reg_eqb_refl. reflexivity. Qed.
Lemma write_other : forall (B : Type) m x y (v : B), x <> y -> write B m x v y = m y.
Proof. intros B m x y v H. unfold write. destruct (reg_eqb_spec x y); [contradiction|reflexivity]. Qed.
Lemma set_y_same : forall q y v, get_y q y <> None -> get_y (set_y V q y v) y = Some v.
Proof. intros [[|n f|] l g] y v H; unfold Clause_Spec.get_y, set_y in *; cbn [Clause_Spec.me] in *; try congruence. destruct (y <? n); [|congruence]. rewrite Nat.eqb_refl. reflexivity. Qed.
Lemma set_y_other : forall q y z v, z <> y -> get_y (set_y V q y v) z = get_y q z.
Proof. intros [[|n f|] l g] y z v H; unfold Clause_Spec.get_y, set_y in *; cbn [Clause_Spec.me] in *; try congruence. destruct (z <? n); [|reflexivity]. destruct (Nat.eqb_spec z y); [contradiction|reflexivity]. Qed.
Lemma set_y_ms : forall q y v, ms (set_y V q y v) = ms q.
Proof. intros [[|n f|] l g] y v; reflexivity. Qed.
Lemma set_y_mg : forall q y v, mg (set_y V q y v) = mg q.
Proof. intros [[|n f|] l g] y v; reflexivity. Qed.
Lemma set_y_envok : forall q y v, envok q -> envok (set_y V q y v).
Proof.
  intros q y v (H1 & H2). split; [destruct q as [[|n f|] l g]; cbn in *; [exact H1|discriminate|exact H1]|]. intros n z Hn Hz. destruct (Nat.eq_dec z y) as [->|D]; [rewrite set_y_same; [discriminate|eauto]|rewrite set_y_other by exact D; eauto].
Qed.
Lemma set_s_envok : forall q l, envok q -> envok (set_s V q l).
Proof. intros q l H. exact H. Qed.
Lemma agree_set_s : forall (L P : nat -> Prop) s e m q l, agree L P s e m q <-> agree L P s e m (set_s V q l).
Proof. intros L P s e m q l. split; intros [H1 H2 H3]; constructor; auto. Qed.
Lemma agree_L : forall (L L' P P' : nat -> Prop) s e m q, agree L P s e m q -> (forall n, L' n -> L n) -> (forall n, P' n -> P n) -> agree L' P' s e m q.
Proof. intros L L' P P' s e m q [H1 H2 H3] HL HP. constructor; auto. Qed.

(** a new value in a register *)
Lemma agree_new_x : forall (L P : nat -> Prop) s e m q n v i, agree L P s e m q -> n < N0 -> kd n = KX -> ~ known s n -> (forall x, P x -> N0 <= x) ->
  agree L P (set_inf s n i) (upd e n v) (write V m (T n) v) q.
Proof.
  intros L P s e m q n v i [H1 H2 H3] Hn EK NK HP. constructor.
  - intros k Hk EKk K HL. destruct (Nat.eq_dec k n) as [->|D]; [rewrite write_same, upd_same; reflexivity|]. rewrite write_other by congruence. rewrite upd_other by exact D. apply known_set in K. destruct K; [auto|contradiction].
  - intros k y Hk EKk K. assert (D : k <> n) by congruence. rewrite upd_other by exact D. apply known_set in K. destruct K; [auto|contradiction].
  - intros x Hx. specialize (HP x Hx) as Q. rewrite write_other by (intros E; injection E; lia). rewrite upd_other by lia. auto.
Qed.
Lemma agree_new_y : forall (L P : nat -> Prop) s e m q n y v i, agree L P s e m q -> envok q -> n < N0 -> kd n = KY y -> ~ known s n -> (forall x, P x -> N0 <= x) ->
  agree L P (set_inf s n i) (upd e n v) m (set_y V q y v).
Proof.
  intros L P s e m q n y v i [H1 H2 H3] (_ & EO) Hn EK NK HP. constructor.
  - intros k Hk EKk K HL. assert (D : k <> n) by congruence. rewrite upd_other by exact D. apply known_set in K. destruct K; [auto|contradiction].
  - intros k z Hk EKk K. destruct (Nat.eq_dec k n) as [->|D].
    + assert (z = y) by congruence. subst z. rewrite upd_same, set_y_same; eauto.
    + rewrite upd_other by exact D. rewrite set_y_other; [apply known_set in K; destruct K; [auto|contradiction]|]. intros ->. apply D. eauto.
  - intros x Hx. specialize (HP x Hx) as Q. rewrite upd_other by lia. auto.
Qed.
Lemma agree_write : forall (L P : nat -> Prop) s e m q x v, agree L P s e m q -> (forall t, x = T t -> N0 <= t /\ ~ P t) -> agree L P s e (write V m x v) q.
Proof.
  intros L P s e m q x v [H1 H2 H3] HX. constructor; auto.
  - intros k Hk EKk K HL. rewrite write_other; [auto|]. intros ->. destruct (HX k eq_refl). lia.
  - intros k Hk. rewrite write_other; [auto|]. intros ->. destruct (HX k eq_refl). contradiction.
Qed.
Lemma agree_void : forall (L P : nat -> Prop) s e m q n v, agree L P s e m q -> n < N0 -> kd n = KVoid -> (forall x, P x -> N0 <= x) -> agree L P s (upd e n v) m q.
Proof.
  intros L P s e m q n v [H1 H2 H3] Hn EK HP. constructor.
  - intros k Hk EKk K HL. rewrite upd_other by congruence. auto.
  - intros k z Hk EKk K. rewrite upd_other by congruence. auto.
  - intros x Hx. specialize (HP x Hx) as Q. rewrite upd_other by lia. auto.
Qed.

(** ** Variables *)
Notation exec := (exec V cst fn).
Lemma unknown : forall s n, inf s n = None -> ~ known s n.
Proof. intros s n E K. apply K. exact E. Qed.
Ltac single H := cbn in H; let m1 := fresh "m1" in let q1 := fresh "q1" in let HS := fresh "HS" in destruct H as (m1 & q1 & HS & -> & ->).
(** what is found by the code of a term: the values [e'] *)
Lemma unif_var_sound : forall (L P : nat -> Prop) n x s c s' m q m' q' e, unif_var kd n x s = (c, s') -> n < N0 -> (forall x, P x -> N0 <= x) -> (kd n = KX -> L n) ->
  exec c m q m' q' -> ms q = [] -> envok q -> agree L P s e m q -> (known s n -> kd n <> KVoid) ->
  exists e', (forall k, k <> n -> e' k = e k) /\ (known s n -> e' n = e n) /\ m x = e' n /\ ms q' = [] /\ mg q' = mg q /\ envok q' /\ agree L P s' e' m' q'.
Proof.
  intros L P n x s c s' m q m' q' e E Hn HP HL H MS EO AG NV. unfold unif_var in E. destruct (inf s n) as [i|] eqn:EI.
  - assert (K : known s n) by (unfold known; congruence). destruct (kd n) eqn:EK; injection E as <- <-; [|exfalso; apply (NV K); reflexivity|]; single H; destruct HS as (v & o & -> & NL & HS); destruct HS as (_ & HS & ->); exists e; (split; [auto|]; split; [auto|]; split; [|auto]).
    + rewrite <- HS. apply (ag_x _ _ _ _ _ _ AG); auto.
    + pose proof (ag_y _ _ _ _ _ _ AG n y Hn EK K). congruence.
  - pose proof (unknown _ _ EI) as NK. destruct (kd n) eqn:EK; injection E as <- <-.
    + single H. destruct HS as (-> & ->). exists (upd e n (m x)). split; [intros k Hk; apply upd_other; exact Hk|]. split; [contradiction|]. split; [rewrite upd_same; reflexivity|]. repeat (split; [assumption || reflexivity|]). apply agree_new_x; auto.
    + cbn in H. destruct H as (-> & ->). exists (upd e n (m x)). split; [intros k Hk; apply upd_other; exact Hk|]. split; [contradiction|]. split; [rewrite upd_same; reflexivity|]. repeat (split; [assumption || reflexivity|]). apply agree_void; auto.
    + single H. destruct HS as (v & o & -> & NL & _ & HS & ->). exists (upd e n (m x)). split; [intros k Hk; apply upd_other; exact Hk|]. split; [contradiction|]. split; [rewrite upd_same; reflexivity|].
      split; [rewrite set_y_ms; exact MS|]. split; [apply set_y_mg|]. split; [apply set_y_envok; exact EO|]. apply agree_new_y; auto.
Qed.
Lemma load_var_sound : forall (L P : nat -> Prop) lp n x s c s' m q m' q' e, load_var kd lp n x s = (c, s') -> n < N0 -> (forall x, P x -> N0 <= x) -> (kd n = KX -> L n) -> (forall t, x = T t -> N0 <= t /\ ~ P t) -> lp_ok kd lp s [n] ->
  exec c m q m' q' -> ms q = [] -> envok q -> agree L P s e m q -> (known s n -> kd n <> KVoid) ->
  exists e', (forall k, k <> n -> e' k = e k) /\ (known s n -> e' n = e n) /\ m' x = e' n /\ ms q' = [] /\ mg q' = mg q /\ envok q' /\ agree L P s' e' m' q'.
Proof.
  intros L P lp n x s c s' m q m' q' e E Hn HP HL HX HLP H MS EO AG NV. unfold load_var in E. destruct (inf s n) as [i|] eqn:EI.
  - assert (K : known s n) by (unfold known; congruence). destruct (kd n) eqn:EK; injection E as <- <-; [|exfalso; apply (NV K); reflexivity|]; single H.
    + destruct HS as (-> & ->). exists e. split; [auto|]. split; [auto|]. split; [rewrite write_same; apply (ag_x _ _ _ _ _ _ AG); auto|]. repeat (split; [assumption || reflexivity|]). apply agree_write; auto.
    + assert (Q : exists v0, m1 = write V m x v0 /\ get_y q y = Some v0 /\ q1 = q) by (destruct i; try destruct lp; destruct HS as (v0 & o & -> & NL & HS); cbn in HS; exists v0; tauto).
      destruct Q as (v0 & -> & HY & ->). exists e. split; [auto|]. split; [auto|]. split; [rewrite write_same; pose proof (ag_y _ _ _ _ _ _ AG n y Hn EK K); congruence|]. repeat (split; [assumption || reflexivity|]). apply agree_write; auto.
  - pose proof (unknown _ _ EI) as NK. destruct (kd n) eqn:EK; injection E as <- <-.
    + single H. destruct HS as (v & o & -> & NL & _ & ->). exists (upd e n v). split; [intros k Hk; apply upd_other; exact Hk|]. split; [contradiction|]. cbn [writes]. split; [rewrite upd_same, write_same; reflexivity|]. repeat (split; [assumption || reflexivity|]).
      apply agree_write; [|exact HX]. apply agree_new_x; auto.
    + single H. destruct HS as (v & o & -> & NL & _ & ->). exists (upd e n v). split; [intros k Hk; apply upd_other; exact Hk|]. split; [contradiction|]. cbn [writes]. split; [rewrite upd_same, write_same; reflexivity|]. repeat (split; [assumption || reflexivity|]).
      apply agree_write; [|exact HX]. apply agree_void; auto.
    + destruct lp; [exfalso; apply NK; apply (HLP eq_refl n y (or_introl eq_refl) EK)|]. single H. destruct HS as (v & o & -> & NL & _ & HS & ->). exists (upd e n v). split; [intros k Hk; apply upd_other; exact Hk|]. split; [contradiction|]. cbn [writes]. split; [rewrite upd_same, write_same; reflexivity|].
      split; [rewrite set_y_ms; exact MS|]. split; [apply set_y_mg|]. split; [apply set_y_envok; exact EO|]. apply agree_write; [|exact HX]. apply agree_new_y; auto.
Qed.
Lemma sub_var_sound : forall (L P : nat -> Prop) n s c s' m q m' q' e, sub_var n (kd n) s = (c, s') -> n < N0 -> (forall x, P x -> N0 <= x) -> (kd n = KX -> L n) -> kd n <> KVoid ->
  exec c m q m' q' -> envok q -> agree L P s e m q ->
  exists e', (forall k, k <> n -> e' k = e k) /\ (known s n -> e' n = e n) /\ ms q = e' n :: ms q' /\ mg q' = mg q /\ envok q' /\ agree L P s' e' m' q'.
Proof.
  intros L P n s c s' m q m' q' e E Hn HP HL NV H EO AG. unfold sub_var in E. destruct (inf s n) as [i|] eqn:EI.
  - assert (K : known s n) by (unfold known; congruence). destruct (kd n) eqn:EK; [|congruence|].
    + assert (Q : s' = s /\ exists k, c = [unify_value_x k (T n)]) by (destruct i; injection E as <- <-; eauto). destruct Q as (-> & k & ->). single H. destruct HS as (v & o & -> & NL & l & HS & ->). exists e. split; [auto|]. split; [auto|].
      split; [cbn in *; rewrite HS; f_equal; apply (ag_x _ _ _ _ _ _ AG); auto|]. split; [reflexivity|]. split; [exact EO|]. exact (proj1 (agree_set_s _ _ _ _ _ _ _) AG).
    + assert (Q : s' = s /\ (c = [other (i_unify_value_y y)] \/ c = [other (i_unify_local_value_y y)])) by (destruct i; injection E as <- <-; auto). destruct Q as (-> & Q).
      assert (Q1 : exists u l, m' = m /\ ms q = u :: l /\ get_y q y = Some u /\ q' = set_s V q l) by (destruct Q as [->| ->]; single H; destruct HS as (v & o & -> & NL & u & l & HS); exists u, l; tauto).
      destruct Q1 as (u & l & -> & HS & HY & ->). exists e. split; [auto|]. split; [auto|]. split; [cbn; rewrite HS; f_equal; pose proof (ag_y _ _ _ _ _ _ AG n y Hn EK K); congruence|]. split; [reflexivity|]. split; [exact EO|]. exact (proj1 (agree_set_s _ _ _ _ _ _ _) AG).
  - pose proof (unknown _ _ EI) as NK. destruct (kd n) eqn:EK; [|congruence|]; injection E as <- <-; single H; destruct HS as (v & o & -> & NL & HS).
    + destruct HS as (l & HS & ->). exists (upd e n v). split; [intros k Hk; apply upd_other; exact Hk|]. split; [contradiction|]. split; [rewrite upd_same; exact HS|]. split; [reflexivity|]. split; [exact EO|]. apply agree_set_s. cbn [map writes fst]. apply agree_new_x; auto.
    + destruct HS as (u & l & HS & HY & ->). exists (upd e n u). split; [intros k Hk; apply upd_other; exact Hk|]. split; [contradiction|]. split; [rewrite upd_same; exact HS|]. split; [apply set_y_mg|]. split; [apply set_s_envok, set_y_envok; exact EO|]. apply agree_set_s. apply agree_new_y; auto.
Qed.
Lemma sub_aux_sound : forall hb (L P : nat -> Prop) x s c s' m q m' q' e, sub_var x KX s = (c, s') -> aux_ok N0 hb s x -> (forall y, P y -> N0 <= y) -> (if hb then ~ P x else P x) ->
  exec c m q m' q' -> envok q -> agree L P s e m q ->
  exists e', (forall k, k <> x \/ hb = false -> e' k = e k) /\ ms q = e' x :: ms q' /\ mg q' = mg q /\ envok q' /\ agree L (fun y => P y \/ y = x) s' e' m' q'.
Proof.
  intros hb L P x s c s' m q m' q' e E (AX & EI) HP HB H EO AG. unfold sub_var in E. rewrite EI in E. destruct hb; injection E as <- <-; single H; destruct HS as (v & o & -> & NL & l & HS & ->).
  - exists (upd e x v). split; [intros k [Hk|Hk]; [apply upd_other; exact Hk|discriminate Hk]|]. split; [rewrite upd_same; exact HS|]. split; [reflexivity|]. split; [exact EO|]. apply agree_set_s. destruct AG as [H1 H2 H3]. constructor; cbn [writes map fst].
    + intros k Hk EKk K HL. rewrite write_other by (intros Q; injection Q; lia). rewrite upd_other by lia. apply known_set in K. destruct K; [auto|lia].
    + intros k y Hk EKk K. rewrite upd_other by lia. apply known_set in K. destruct K; [auto|lia].
    + intros y Hy. destruct (Nat.eq_dec y x) as [->|D]; [rewrite write_same, upd_same; reflexivity|]. rewrite write_other by congruence. rewrite upd_other by exact D. destruct Hy; [auto|contradiction].
  - exists e. split; [auto|]. split; [cbn in *; rewrite HS; f_equal; apply (ag_p _ _ _ _ _ _ AG); exact HB|]. split; [reflexivity|]. split; [exact EO|]. apply agree_set_s. apply (agree_L _ _ _ _ _ _ _ _ AG); [auto|]. intros y [Hy| ->]; auto.
Qed.

(** ** Void variables *)
Definition vo (l : list nat) : list nat := filter (is_void kd) l.
Lemma vo_app : forall l1 l2, vo (l1 ++ l2) = vo l1 ++ vo l2.
Proof. intros. unfold vo. apply filter_app. Qed.
Lemma vo_in : forall n l, In n (vo l) <-> In n l /\ kd n = KVoid.
Proof. intros n l. unfold vo. rewrite filter_In. unfold is_void. destruct (kd n); intuition congruence. Qed.
Lemma vo_perm : forall l l', Permutation l l' -> Permutation (vo l) (vo l').
Proof. induction 1; cbn; auto; [destruct (is_void kd x); auto|destruct (is_void kd x), (is_void kd y); auto; apply perm_swap|eapply Permutation_trans; eauto]. Qed.
Lemma nodup_app : forall (l1 l2 : list nat), NoDup (l1 ++ l2) -> NoDup l1 /\ NoDup l2 /\ forall x, In x l1 -> In x l2 -> False.
Proof.
  induction l1 as [|a l1 IH]; intros l2 N; cbn in *; [split; [constructor|]; split; [exact N|contradiction]|]. inversion N; subst. destruct (IH l2 H2) as (I1 & I2 & I3). rewrite in_app_iff in H1. split; [constructor; tauto|]. split; [exact I2|].
  intros x [->|Hx] Hy; [tauto|eauto].
Qed.
Lemma vo_nodup : forall l1 l2, NoDup (vo (l1 ++ l2)) -> NoDup (vo l1) /\ NoDup (vo l2) /\ forall n, In n l1 -> In n l2 -> kd n <> KVoid.
Proof.
  intros l1 l2 N. rewrite vo_app in N. destruct (nodup_app _ _ N) as (I1 & I2 & I3). split; [exact I1|]. split; [exact I2|]. intros n H1 H2 E. apply (I3 n); apply vo_in; auto.
Qed.
Fixpoint updl (e : nat -> V) (v : list nat) (l : list V) : nat -> V :=
  match v, l with n :: v, u :: l => upd (updl e v l) n u | _, _ => e end.
Lemma updl_other : forall e v l k, ~ In k v -> updl e v l k = e k.
Proof. intros e. induction v as [|n v IH]; intros [|u l] k H; cbn in *; try reflexivity. rewrite upd_other by intuition. apply IH. tauto. Qed.
Lemma updl_map : forall e v l, NoDup v -> length l = length v -> map (updl e v l) v = l.
Proof.
  intros e. induction v as [|n v IH]; intros [|u l] N E; cbn in *; try discriminate E; [reflexivity|]. inversion N; subst. f_equal; [apply upd_same|]. rewrite <- (IH l) at 2; [|assumption|lia]. apply map_ext_in. intros k Hk. apply upd_other. intros ->. contradiction.
Qed.
Lemma agree_updl : forall (L P : nat -> Prop) s m q v l e, agree L P s e m q -> (forall n, In n v -> n < N0 /\ kd n = KVoid) -> (forall x, P x -> N0 <= x) -> agree L P s (updl e v l) m q.
Proof.
  intros L P s m q. induction v as [|n v IH]; intros [|u l] e AG HV HP; cbn; auto. destruct (HV n (or_introl eq_refl)). apply agree_void; auto. apply IH; auto. intros k Hk. apply HV. right. exact Hk.
Qed.
Lemma voids_sound : forall v m q m' q', exec (voids v) m q m' q' -> m' = m /\ exists l1 l2, ms q = l1 ++ l2 /\ length l1 = length v /\ q' = set_s V q l2.
Proof.
  intros [|n v] m q m' q' H.
  - cbn in H. destruct H as (-> & ->). split; [reflexivity|]. exists [], (ms q). split; [reflexivity|]. split; [reflexivity|]. destruct q; reflexivity.
  - single H. destruct HS as (u & o & -> & NL & l1 & l2 & H1 & H2 & ->). split; [reflexivity|]. exists l1, l2. auto.
Qed.
(** ** The arguments of a structure *)
Definition sub_ok (hb : bool) (L : nat -> Prop) (v : list nat) (l : fargs) (s s' : st) (c : list inst) : Prop :=
  forall (P : nat -> Prop) m q m' q' e, (forall x, P x -> N0 <= x) -> (forall x, In x (fx l) -> if hb then ~ P x else P x) ->
  exec c m q m' q' -> envok q -> agree L P s e m q -> length (ms q) = length v + flen l ->
  exists e', (forall n, (In n (v ++ fvars l) /\ ~ known s n) \/ (hb = true /\ In n (fx l)) \/ e' n = e n) /\ ms q = map e' v ++ sub_vals e' l /\ ms q' = [] /\ mg q' = mg q /\ envok q' /\
    agree L (fun y => P y \/ In y (fx l)) s' e' m' q'.
Lemma vo_all : forall v, (forall n, In n v -> kd n = KVoid) -> vo v = v.
Proof. induction v as [|n v IH]; intros H; [reflexivity|]. cbn. unfold is_void. rewrite (H n (or_introl eq_refl)). f_equal. apply IH. intros k Hk. apply H. right. exact Hk. Qed.
Lemma sub_ok_voids : forall hb L v l s s' c, sub_ok hb L [] l s s' c -> (forall n, In n (v ++ fvars l) -> n < N0) -> (forall n, In n v -> kd n = KVoid) -> (forall x, In x (fx l) -> N0 <= x) ->
  NoDup (vo (v ++ fvars l)) -> (forall n, known s n -> kd n = KVoid -> N0 <= n) -> sub_ok hb L v l s s' (voids v ++ c).
Proof.
  intros hb L v l s s' c SO HN HV HX NV KV P m q m' q' e HP HB H EO AG LEN. apply exec_app in H. destruct H as (ma & qa & H0 & H). apply voids_sound in H0. destruct H0 as (-> & l1 & l2 & Q1 & Q2 & ->).
  destruct (vo_nodup _ _ NV) as (N1 & N2 & N3). rewrite (vo_all v HV) in N1.
  assert (VL : forall n, In n v -> n < N0 /\ kd n = KVoid) by (intros n Hn; split; [apply HN; apply in_app_iff; auto|auto]).
  destruct (SO P m (set_s V q l2) m' q' (updl e v l1) HP HB H EO) as (e' & R1 & R2 & R3 & R4 & R5 & R6).
  - apply agree_set_s. apply agree_updl; auto.
  - cbn. rewrite Q1, app_length in LEN. lia.
  - assert (VE : forall n, In n v -> e' n = updl e v l1 n).
    { intros n Hn. destruct (R1 n) as [(Q & _)|[(_ & Q)|Q]]; [exfalso; apply (N3 n Hn Q); auto|exfalso; specialize (HX n Q); destruct (VL n Hn); lia|exact Q]. }
    exists e'. split; [|split; [|auto]].
    + intros n. destruct (in_dec Nat.eq_dec n v) as [Hn|Hn].
      * left. split; [apply in_app_iff; auto|]. intros K. destruct (VL n Hn). specialize (KV n K ltac:(auto)). lia.
      * destruct (R1 n) as [(Q1' & Q2')|[Q|Q]]; [left; split; [apply in_app_iff; auto|exact Q2']|auto|]. right. right. rewrite Q. apply updl_other. exact Hn.
    + cbn in R2. rewrite Q1, R2. f_equal. rewrite <- (updl_map e v l1) at 1 by auto. apply map_ext_in. intros n Hn. symmetry. apply VE. exact Hn.
Qed.
Lemma gen_sub_sound : forall hb l (L : nat -> Prop) v s c s', gen_sub kd v l s = (c, s') -> wfs N0 s -> (forall n, In n (v ++ fvars l) -> n < N0) -> (forall n, In n v -> kd n = KVoid) ->
  (forall x, In x (fx l) -> aux_ok N0 hb s x) -> NoDup (fx l) -> NoDup (vo (v ++ fvars l)) -> arity_ok l -> (forall n, In n (fvars l) -> kd n = KX -> L n) -> (forall n, known s n -> kd n = KVoid -> N0 <= n) ->
  sub_ok hb L v l s s' c.
Proof.
  intros hb. induction l as [|[n|b|x t] l IH|f n l IH]; intros L v s c s' E W HN HV HX ND NV AR HL KV.
  - cbn in E. injection E as <- <-. rewrite <- (app_nil_r (voids v)). apply sub_ok_voids; auto; [|intros x []].
    intros P m q m' q' e HP HB H EO AG LEN. cbn in H. destruct H as (-> & ->). cbn in LEN |- *. exists e. split; [auto|]. assert (Q : ms q = []) by (destruct (ms q); [reflexivity|discriminate LEN]). repeat (split; [assumption || reflexivity|]). apply (agree_L _ _ _ _ _ _ _ _ AG); [auto|]. intros k [Hk|[]]. exact Hk.
  - cbn [gen_sub] in E. cbn [fvars fx flen arity_ok] in *. unfold is_void in E. assert (ON : kd n = KVoid \/ kd n <> KVoid) by (destruct (kd n); auto; right; discriminate).
    destruct ON as [EK|NVn].
    + rewrite EK in E. change (v ++ n :: fvars l) with (v ++ [n] ++ fvars l) in *. rewrite app_assoc in *.
      assert (SO : sub_ok hb L (v ++ [n]) l s s' c).
      { apply IH; auto. - intros k Hk. rewrite in_app_iff in Hk. destruct Hk as [Hk|[<-|[]]]; auto. - intros k Hk. apply HL. right. exact Hk. }
      intros P m q m' q' e HP HB H EO AG LEN. cbn [flen] in LEN. destruct (SO P m q m' q' e HP HB H EO AG ltac:(rewrite app_length; cbn; lia)) as (e' & R1 & R2 & R3). exists e'. split; [cbn [fvars fx]; change (v ++ n :: fvars l) with (v ++ [n] ++ fvars l); rewrite app_assoc; exact R1|]. split; [|exact R3]. rewrite R2, map_app, <- app_assoc. reflexivity.
    + assert (E' : (let (c1, s) := sub_var n (kd n) s in let (c2, s) := gen_sub kd [] l s in (voids v ++ c1 ++ c2, s)) = (c, s')) by (destruct (kd n); [exact E|congruence|exact E]). clear E.
      destruct (sub_var n (kd n) s) as (c1, s1) eqn:E1. destruct (gen_sub kd [] l s1) as (c2, s2) eqn:E2. injection E' as <- <-.
      assert (Ln : n < N0) by (apply HN; apply in_app_iff; cbn; auto).
      apply sub_ok_voids; auto; [|intros y Hy; apply (HX y Hy)].
      pose proof (sub_var_shape kd N0 _ _ _ _ E1 Ln NVn) as S1. destruct (vo_nodup _ _ NV) as (_ & N2 & _). destruct (vo_nodup [n] (fvars l) N2) as (_ & N3 & _).
      assert (SO : sub_ok hb L [] l s1 s2 c2).
      { apply IH; auto.
        - apply (shape_wfs _ _ _ _ _ _ _ S1 W). intros ? [].
        - intros k Hk. apply HN. apply in_app_iff. cbn in *. auto.
        - intros k [].
        - intros y Hy. apply (aux_ok_mono _ _ _ _ _ _ _ _ _ S1 (HX y Hy)). intros [].
        - intros k Hk. apply HL. right. exact Hk.
        - intros k K EK. destruct (sh_new _ _ _ _ _ _ _ S1 k K) as [Q|[(_ & [<-|[]] & _)|[[]|Q]]]; auto; [contradiction|]. destruct W as (W & _). lia. }
      intros P m q m' q' e HP HB H EO AG LEN. cbn [flen fvars fx length app map sub_vals] in *. apply exec_app in H. destruct H as (mb & qb & H1 & H2).
      destruct (sub_var_sound L P n s c1 s1 m q mb qb e E1 Ln HP ltac:(apply HL; left; reflexivity) NVn H1 EO AG) as (e1 & A1 & A2 & A3 & A4 & A5 & A6).
      destruct (SO P mb qb m' q' e1 HP HB H2 A5 A6) as (e' & R1 & R2 & R3 & R4 & R5 & R6); [rewrite A3 in LEN; cbn in LEN |- *; lia|].
      cbn [app map] in *. assert (K1 : known s1 n) by (apply (sh_vars _ _ _ _ _ _ _ S1); [left; reflexivity|exact NVn]).
      exists e'. split; [|split; [|split; [exact R3|split; [congruence|split; [exact R5|exact R6]]]]].
      * intros k. destruct (R1 k) as [(Q1 & Q2)|[Q|Q]]; [|auto|].
        -- left. split; [right; exact Q1|]. intros K. apply Q2. apply (known_mono _ _ _ _ _ _ _ _ S1 K).
        -- rewrite Q. destruct (Nat.eq_dec k n) as [->|D]; [|auto]. destruct (known_dec s n) as [K|K]; [auto|]. left. split; [left; reflexivity|exact K].
      * rewrite A3, R2. f_equal. destruct (R1 n) as [(_ & Q)|[(_ & Q)|Q]]; [contradiction|destruct (HX n Q); lia|congruence].
  - cbn [gen_sub] in E. cbn [fvars fx flen arity_ok] in *. destruct (gen_sub kd [] l s) as (c2, s2) eqn:E2. injection E as <- <-.
    apply sub_ok_voids; auto; [|intros y Hy; apply (HX y Hy)]. destruct (vo_nodup _ _ NV) as (_ & N2 & _).
    assert (SO : sub_ok hb L [] l s s2 c2) by (apply IH; auto; [intros k Hk; apply HN; apply in_app_iff; auto|intros k []]).
    intros P m q m' q' e HP HB H EO AG LEN. cbn [flen fvars fx length app map sub_vals] in *. destruct H as (mb & qb & (u & o & -> & NL & l0 & H1 & ->) & H2). cbn [map writes] in H2.
    destruct (SO P _ _ m' q' e HP HB H2 EO) as (e' & R1 & R2 & R3); [apply agree_set_s; exact AG|cbn in *; rewrite H1 in LEN; cbn in LEN; lia|].
    exists e'. split; [exact R1|]. split; [|exact R3]. cbn in R2. rewrite H1, R2. reflexivity.
  - cbn [gen_sub] in E. cbn [fvars fx flen arity_ok] in *. destruct (sub_var x KX s) as (c1, s1) eqn:E1. destruct (gen_sub kd [] l s1) as (c2, s2) eqn:E2. injection E as <- <-.
    inversion ND as [|? ? ND1 ND2]; subst.
    apply sub_ok_voids; auto; [|intros y Hy; apply (HX y Hy)]. destruct (vo_nodup _ _ NV) as (_ & N2 & _).
    pose proof (sub_aux_shape kd N0 hb _ _ _ _ E1 (HX x (or_introl eq_refl))) as S1.
    assert (XB : forall k, In k (if hb then [x] else []) -> k = x) by (intros k Hk; destruct hb; cbn in Hk; intuition).
    assert (SO : sub_ok hb L [] l s1 s2 c2).
    { apply IH; auto.
      - apply (shape_wfs _ _ _ _ _ _ _ S1 W). intros k Hk. rewrite (XB k Hk). apply (HX x (or_introl eq_refl)).
      - intros k Hk. apply HN. apply in_app_iff. auto.
      - intros k [].
      - intros y Hy. apply (aux_ok_mono _ _ _ _ _ _ _ _ _ S1 (HX y (or_intror Hy))). intros Q. rewrite (XB y Q) in Hy. contradiction.
      - intros k K EK. destruct (sh_new _ _ _ _ _ _ _ S1 k K) as [Q|[(_ & [] & _)|[Q|Q]]]; auto; [rewrite (XB k Q); apply (HX x (or_introl eq_refl))|]. destruct W as (W & _). lia. }
    intros P m q m' q' e HP HB H EO AG LEN. cbn [flen fvars fx length app map sub_vals] in *. apply exec_app in H. destruct H as (mb & qb & H1 & H2).
    destruct (sub_aux_sound hb L P x s c1 s1 m q mb qb e E1 (HX x (or_introl eq_refl)) HP (HB x (or_introl eq_refl)) H1 EO AG) as (e1 & A1 & A3 & A4 & A5 & A6).
    destruct (SO (fun y => P y \/ y = x) mb qb m' q' e1) as (e' & R1 & R2 & R3 & R4 & R5 & R6); auto.
    { intros y [Hy| ->]; [auto|apply (HX x (or_introl eq_refl))]. }
    { intros y Hy. specialize (HB y (or_intror Hy)). destruct hb; [|auto]. intros [Q| ->]; contradiction. }
    { rewrite A3 in LEN. cbn in LEN |- *. lia. }
    cbn [app map] in *. exists e'. split; [|split; [|split; [exact R3|split; [congruence|split; [exact R5|]]]]].
    + intros k. destruct (R1 k) as [(Q1 & Q2)|[(Q1 & Q2)|Q]]; [|right; left; split; [exact Q1|right; exact Q2]|].
      * left. split; [auto|]. intros K. apply Q2. apply (known_mono _ _ _ _ _ _ _ _ S1 K).
      * rewrite Q. destruct (Nat.eq_dec k x) as [->|D]; [|right; right; apply A1; auto]. destruct hb; [right; left; split; [reflexivity|left; reflexivity]|right; right; apply A1; auto].
    + rewrite A3, R2. f_equal. destruct (R1 x) as [(Q & _)|[(_ & Q)|Q]]; [|contradiction|congruence]. exfalso. specialize (HN x ltac:(apply in_app_iff; auto)). destruct (HX x (or_introl eq_refl)). lia.
    + apply (agree_L _ _ _ _ _ _ _ _ R6); [auto|]. cbn. intros y Hy. intuition.
  - cbn [gen_sub] in E. cbn [fvars fx flen arity_ok] in *. destruct AR as (-> & AR). destruct (gen_sub kd [] l s) as (c2, s2) eqn:E2. injection E as <- <-.
    apply sub_ok_voids; auto; [|intros y Hy; apply (HX y Hy)]. destruct (vo_nodup _ _ NV) as (_ & N2 & _).
    assert (SO : sub_ok hb L [] l s s2 c2) by (apply IH; auto; [intros k Hk; apply HN; apply in_app_iff; auto|intros k []]).
    intros P m q m' q' e HP HB H EO AG LEN. cbn [flen fvars fx length app map sub_vals] in *. destruct H as (mb & qb & (u & o & -> & NL & l0 & H1 & H3 & ->) & H2). cbn [map writes] in H2.
    destruct (SO P _ _ m' q' e HP HB H2 EO) as (e' & R1 & R2 & R3); [apply agree_set_s; exact AG|cbn in *; lia|].
    exists e'. split; [exact R1|]. split; [|exact R3]. cbn in R2. rewrite H1, R2. reflexivity.
Qed.

(** ** Terms *)
Definition chg (s s' : st) (Vs : list nat) (n : nat) : Prop := (In n Vs /\ ~ known s n) \/ nxt s <= n < nxt s'.
(** no void variable is known *)
Definition KV (s : st) : Prop := forall n, known s n -> kd n = KVoid -> N0 <= n.
Lemma KV_mono : forall X Vs s s' c, shape kd N0 X Vs s s' c -> KV s -> N0 <= nxt s -> (forall x, In x X -> N0 <= x) -> KV s'.
Proof. intros X Vs s s' c Sh H L HX n K EK. destruct (sh_new _ _ _ _ _ _ _ Sh n K) as [Q|[(_ & _ & Q)|[Q|Q]]]; auto; [contradiction|lia]. Qed.
(** the variables of a term are not changed by the code of the next ones *)
Lemma not_chg : forall X V1 V2 s s1 s2 c1, shape kd N0 X V1 s s1 c1 -> lvl N0 V1 -> wfs N0 s -> (forall n, In n V1 -> In n V2 -> kd n <> KVoid) -> forall n, In n V1 -> ~ chg s1 s2 V2 n.
Proof.
  intros X V1 V2 s s1 s2 c1 Sh HL (W & _) HD n Hn [(Q1 & Q2)|Q]; [|specialize (HL n Hn); pose proof (sh_nxt _ _ _ _ _ _ _ Sh); lia].
  apply Q2. apply (sh_vars _ _ _ _ _ _ _ Sh n Hn). auto.
Qed.
Lemma chg_app : forall X V1 V2 s s1 s2 c1 n, shape kd N0 X V1 s s1 c1 -> nxt s1 <= nxt s2 -> chg s s1 V1 n \/ chg s1 s2 V2 n -> chg s s2 (V1 ++ V2) n.
Proof.
  intros X V1 V2 s s1 s2 c1 n Sh L H. pose proof (sh_nxt _ _ _ _ _ _ _ Sh). unfold chg in *. rewrite in_app_iff. destruct H as [[(Q1 & Q2)|Q]|[(Q1 & Q2)|Q]]; [tauto|right; lia| |right; lia].
  left. split; [auto|]. intros K. apply Q2. apply (known_mono _ _ _ _ _ _ _ _ Sh K).
Qed.
Lemma chg_incl : forall s s' V1 V2 n, chg s s' V1 n -> (forall n, In n V1 -> In n V2) -> chg s s' V2 n.
Proof. intros s s' V1 V2 n [(Q1 & Q2)|Q] H; [left; auto|right; exact Q]. Qed.
Lemma keeps : forall X Vs s s' c m q m' q' x, shape kd N0 X Vs s s' c -> exec c m q m' q' -> (forall a, x = A a -> ~ In a (aw c)) -> (forall y, x = T y -> N0 <= y < nxt s /\ ~ In y X) -> m' x = m x.
Proof.
  intros X Vs s s' c m q m' q' x Sh H HA HT. apply (exec_other _ _ _ _ _ _ _ _ _ H); [apply (sh_lost _ _ _ _ _ _ _ Sh)|]. intros Q. destruct x as [a|y].
  - apply (HA a eq_refl). apply aw_in. exact Q.
  - destruct (HT y eq_refl) as (Q1 & Q2). apply tw_in in Q. destruct (sh_tw _ _ _ _ _ _ _ Sh y Q) as [Q3|[(Q3 & _)|Q3]]; [contradiction|lia|lia].
Qed.
Definition usound (t : tm) (x : reg) (s : st) (c : list inst) (s' : st) : Prop :=
  wfs N0 s -> lvl N0 (vars t) -> tgt_ok N0 s x -> KV s -> NoDup (vo (vars t)) -> forall L : nat -> Prop, (forall n, In n (vars t) -> kd n = KX -> L n) ->
  forall (P : nat -> Prop) m q m' q' e, (forall y, P y -> N0 <= y < nxt s) -> exec c m q m' q' -> ms q = [] -> envok q -> agree L P s e m q ->
  exists e', (forall n, chg s s' (vars t) n \/ e' n = e n) /\ m x = eval e' t /\ ms q' = [] /\ mg q' = mg q /\ envok q' /\ agree L P s' e' m' q'.
Lemma gen_lst_unif_sound : forall g l, (forall p, In p l -> forall s c s', g (snd p) (fst p) s = Some (c, s') -> (exists k, gen_unif fl kd k (snd p) (fst p) s = Some (c, s')) /\ usound (snd p) (fst p) s c s') ->
  forall s c s', gen_lst g l s = Some (c, s') -> wfs N0 s -> lvl N0 (lvars (map snd l)) -> (forall p, In p l -> tgt_ok N0 s (fst p)) -> KV s -> NoDup (vo (lvars (map snd l))) ->
  forall L : nat -> Prop, (forall n, In n (lvars (map snd l)) -> kd n = KX -> L n) ->
  forall (P : nat -> Prop) m q m' q' e, (forall y, P y -> N0 <= y < nxt s) -> exec c m q m' q' -> ms q = [] -> envok q -> agree L P s e m q ->
  shape kd N0 [] (lvars (map snd l)) s s' c /\
  exists e', (forall n, chg s s' (lvars (map snd l)) n \/ e' n = e n) /\ (forall x t, In (x, t) l -> m x = eval e' t) /\ ms q' = [] /\ mg q' = mg q /\ envok q' /\ agree L P s' e' m' q'.
Proof.
  intros g. induction l as [|(x, t) l IH]; intros HG s c s' E W HN HX HK NV L HL P m q m' q' e HP H MS EO AG.
  - cbn in E. injection E as <- <-. split; [apply shape_nil|]. cbn in H. destruct H as (-> & ->). exists e. split; [auto|]. split; [contradiction|]. auto.
  - cbn [gen_lst] in E. destruct (g t x s) as [(c1, s1)|] eqn:E1; [|discriminate E]. destruct (gen_lst g l s1) as [(c2, s2)|] eqn:E2; [|discriminate E]. injection E as <- <-.
    cbn [map snd lvars flat_map] in *. change (flat_map vars (map snd l)) with (lvars (map snd l)) in *.
    destruct (HG (x, t) (or_introl eq_refl) s c1 s1 E1) as ((k & Ek) & US). cbn [fst snd] in *.
    assert (HN1 : lvl N0 (vars t)) by (intros n Hn; apply HN; apply in_app_iff; auto). assert (HN2 : lvl N0 (lvars (map snd l))) by (intros n Hn; apply HN; apply in_app_iff; auto).
    pose proof (HX (x, t) (or_introl eq_refl)) as HXx. cbn in HXx.
    pose proof (gen_unif_shape fl kd N0 _ _ _ _ _ _ Ek W HN1 HXx) as S1. pose proof (sh_nxt _ _ _ _ _ _ _ S1) as L1.
    assert (W1 : wfs N0 s1) by (apply (shape_wfs _ _ _ _ _ _ _ S1 W); intros ? []).
    destruct (vo_nodup _ _ NV) as (N1 & N2 & N3).
    apply exec_app in H. destruct H as (mb & qb & H1 & H2).
    destruct (US W HN1 HXx HK N1 L ltac:(intros n Hn; apply HL; apply in_app_iff; auto) P m q mb qb e HP H1 MS EO AG) as (e1 & A1 & A2 & A3 & A4 & A5 & A6).
    destruct (IH ltac:(intros p Hp; apply HG; right; exact Hp) s1 c2 s2 E2 W1 HN2) with (L := L) (P := P) (m := mb) (q := qb) (m' := m') (q' := q') (e := e1) as (S2 & e' & R1 & R2 & R3 & R4 & R5 & R6); auto.
    { intros p Hp u Hu. specialize (HX p (or_intror Hp) u Hu). lia. }
    { apply (KV_mono _ _ _ _ _ S1 HK); [apply W|intros ? []]. }
    { intros n Hn. apply HL. apply in_app_iff. auto. }
    { intros y Hy. specialize (HP y Hy). lia. }
    assert (S12 := shape_app _ _ _ _ _ _ _ _ _ _ _ S1 S2 W ltac:(intros ? []) ltac:(intros ? [])). split; [exact S12|]. pose proof (sh_nxt _ _ _ _ _ _ _ S2) as L2.
    exists e'. split; [|split; [|split; [exact R3|split; [congruence|split; [exact R5|exact R6]]]]].
    + intros n. destruct (R1 n) as [Q|Q]; [left; apply (chg_app _ _ _ _ _ _ _ _ S1 L2); auto|]. destruct (A1 n) as [Q1|Q1]; [left; apply (chg_app _ _ _ _ _ _ _ _ S1 L2); auto|]. right. congruence.
    + intros y u [Q|Hp].
      * injection Q as <- <-. rewrite A2. apply eval_ext. intros n Hn. destruct (R1 n) as [Q|Q]; [|auto]. exfalso. apply (not_chg _ _ _ _ _ _ _ S1 HN1 W N3 n Hn Q).
      * rewrite <- (R2 y u Hp). symmetry. apply (keeps _ _ _ _ _ _ _ _ _ _ S1 H1).
        -- intros a ->. rewrite (gen_unif_aw fl kd _ _ _ _ _ _ Ek). auto.
        -- intros z ->. split; [apply (HX (T z, u) (or_intror Hp) z eq_refl)|intros []].
Qed.
Lemma gen_unif_sound : forall k t x s c s', gen_unif fl kd k t x s = Some (c, s') -> usound t x s c s'.
Proof.
  assert (HV : forall n x s c s', unif_var kd n x s = (c, s') -> usound (Tv n) x s c s').
  { intros n x s c s' E W HN HX HK NV L HL P m q m' q' e HP H MS EO AG. 
    destruct (unif_var_sound L P n x s c s' m q m' q' e E) as (e' & R1 & R2 & R3 & R4); auto.
    - apply HN. left. reflexivity. - intros y Hy. apply (HP y Hy). - apply HL. left. reflexivity. - intros K Q. specialize (HK n K Q). specialize (HN n (or_introl eq_refl)). lia.
    - exists e'. split; [|split; [exact R3|exact R4]]. intros j. destruct (Nat.eq_dec j n) as [->|D]; [|auto]. destruct (known_dec s n); [auto|]. left. left. cbn. auto. }
  assert (HC : forall b x s, usound (Tc b) x s [get_arg (i_get_const b) x] s).
  { intros b x s W HN HX HK NV L HL P m q m' q' e HP H MS EO AG. single H. destruct HS as (v & o & -> & NL & _ & HS & ->). exists e. split; [auto|]. split; [exact HS|]. auto. }
  induction k as [|k IH]; intros t x s c s' E; (destruct t as [n|b|f l]; [injection E as E; apply HV; exact E|injection E as <- <-; apply HC|]); [discriminate E|].
  cbn [gen_unif] in E. intros W HN HX HK NV L HL P m q m' q' e HP H MS EO AG. rewrite vars_Tf in *.
  destruct (flat fl true (Tf f l) s) as ((fa, ax), s1) eqn:EF. apply flat_Flat in EF. destruct (gen_sub kd [] fa s1) as (c1, s2) eqn:ES.
  destruct (gen_lst (gen_unif fl kd k) (auxs ax) s2) as [(c2, s3)|] eqn:EL; [|discriminate E]. injection E as <- <-.
  destruct (Flat_shape _ _ _ _ _ _ EF) as (F1 & F2 & F3 & F4 & F5 & F6 & F7). destruct (Flat_inf N0 _ _ _ _ _ _ EF W) as (W1 & F8 & F9).
  assert (HP' : forall n, In n (fvars fa ++ lvars (map snd ax)) <-> In n (lvars l)) by (intros n; split; apply Permutation_in; [exact F6|symmetry; exact F6]).
  assert (HXX : forall y, In y (map fst ax) -> nxt s <= y < nxt s1) by (intros y Hy; rewrite F4 in Hy; apply in_seq in Hy; lia).
  pose proof W as (W2 & W3). assert (NV1 : NoDup (vo (fvars fa ++ lvars (map snd ax)))) by (apply (Permutation_NoDup (l := vo (lvars l))); [apply vo_perm; symmetry; exact F6|exact NV]).
  destruct (vo_nodup _ _ NV1) as (N1 & N2 & N3).
  assert (HN1 : lvl N0 (fvars fa)) by (intros n Hn; apply HN; apply HP'; apply in_app_iff; auto). assert (HN2 : lvl N0 (lvars (map snd ax))) by (intros n Hn; apply HN; apply HP'; apply in_app_iff; auto).
  assert (AXo : forall y, In y (fx fa) -> aux_ok N0 true s1 y) by (intros y Hy; rewrite F1 in Hy; split; [specialize (HXX y Hy); lia|apply F9; exact Hy]).
  assert (NDx : NoDup (fx fa)) by (rewrite F1, F4; apply seq_NoDup).
  assert (S1 : shape kd N0 (wr_aux true fa) ([] ++ fvars fa) s1 s2 c1) by (apply (gen_sub_shape kd N0 true fa [] _ _ _ ES W1); auto; intros n []).
  cbn [app wr_aux] in S1. rewrite F1 in S1. assert (W4 : wfs N0 s2) by (apply (shape_wfs _ _ _ _ _ _ _ S1 W1); intros y Hy; apply (HXX y Hy)).
  pose proof (sh_nxt _ _ _ _ _ _ _ S1) as L12.
  assert (K1 : KV s1). { intros n K EK. destruct (le_lt_dec N0 n) as [Q|Q]; [exact Q|]. apply HK; [|exact EK]. unfold known in *. rewrite F8 in K by lia. exact K. }
  assert (K2 : KV s2) by (apply (KV_mono _ _ _ _ _ S1 K1); [apply W1|intros y Hy; specialize (HXX y Hy); lia]).
  assert (SO : sub_ok true L [] fa s1 s2 c1).
  { apply (gen_sub_sound true fa L [] _ _ _ ES W1); auto. - intros n []. - intros n Hn. apply HL. apply HP'. apply in_app_iff. auto. }
  cbn [Clause_Exec.exec] in H. destruct H as (ma & qa & (v & o & -> & NL & _ & vs & V1 & V2 & ->) & H). cbn [map writes] in H. apply exec_app in H. destruct H as (mb & qb & H1 & H2).
  assert (AG1 : agree L P s1 e m (set_s V q vs)).
  { apply agree_set_s. destruct AG as [G1 G2 G3]. constructor; auto.
    - intros n Hn EK K HLn. apply G1; auto. unfold known in *. rewrite F8 in K by lia. exact K.
    - intros n y Hn EK K. apply G2; auto. unfold known in *. rewrite F8 in K by lia. exact K. }
  destruct (SO P m (set_s V q vs) mb qb e) as (e1 & A1 & A2 & A3 & A4 & A5 & A6); auto.
  { intros y Hy. apply (HP y Hy). }
  { intros y Hy Q. rewrite F1 in Hy. specialize (HXX y Hy). specialize (HP y Q). lia. }
  { cbn. lia. }
  cbn [map app Clause_Spec.ms set_s] in A2. cbn [app] in A1.
  destruct (gen_lst_unif_sound (gen_unif fl kd k) (auxs ax)) with (s := s2) (c := c2) (s' := s3) (L := L) (P := fun y => P y \/ In y (fx fa)) (m := mb) (q := qb) (m' := m') (q' := q') (e := e1) as (S2 & e' & R1 & R2 & R3 & R4 & R5 & R6); auto; try (rewrite auxs_snd; assumption).
  { intros p _ sa ca sb Ea. split; [eauto|]. apply (IH _ _ _ _ _ Ea). }
  { intros p Hp. unfold auxs in Hp. apply in_map_iff in Hp. destruct Hp as ((y, u) & <- & Hp). intros z Hz. injection Hz as <-. apply (in_map fst) in Hp. specialize (HXX _ Hp). cbn in *. lia. }
  { rewrite auxs_snd. intros n Hn. apply HL. apply HP'. apply in_app_iff. auto. }
  { intros y [Hy|Hy]; [specialize (HP y Hy); lia|rewrite F1 in Hy; specialize (HXX y Hy); lia]. }
  rewrite auxs_snd in *. pose proof (sh_nxt _ _ _ _ _ _ _ S2) as L23.
  assert (XC : forall n, In n (fx fa) -> e' n = e1 n) by (intros n Hn; destruct (R1 n) as [[(Q & _)|Q]|Q]; auto; rewrite F1 in Hn; specialize (HXX n Hn); [specialize (HN2 n Q)|]; lia).
  assert (VC : forall n, In n (fvars fa) -> e' n = e1 n) by (intros n Hn; destruct (R1 n) as [Q|Q]; auto; exfalso; apply (not_chg _ _ _ _ _ _ _ S1 HN1 W1 N3 n Hn Q)).
  exists e'. split; [|split; [|split; [exact R3|split; [rewrite R4, A4; reflexivity|split; [exact R5|]]]]].
  - intros n. destruct (R1 n) as [[(Q1 & Q2)|Q]|Q].
    + left. left. split; [apply HP'; apply in_app_iff; auto|]. intros K. apply Q2. apply (known_mono _ _ _ _ _ _ _ _ S1). unfold known in *. rewrite F8; [exact K|]. specialize (HN2 n Q1). lia.
    + left. right. lia.
    + rewrite Q. destruct (A1 n) as [(Q1 & Q2)|[(_ & Q1)|Q1]]; [left; left; split; [apply HP'; apply in_app_iff; auto|]|left; right; rewrite F1 in Q1; specialize (HXX n Q1); lia|auto].
      intros K. apply Q2. unfold known in *. rewrite F8; [exact K|]. specialize (HN1 n Q1). lia.
  - cbn [Clause_Spec.eval]. rewrite V2. f_equal. rewrite A2, <- (Flat_vals _ _ _ _ _ _ EF).
    + apply sub_vals_ext. intros n [Hn|Hn]; symmetry; auto.
    + intros y u Hy. assert (Hf : In y (fx fa)) by (rewrite F1; apply (in_map fst) in Hy; exact Hy). rewrite (XC y Hf), <- (ag_p _ _ _ _ _ _ A6 y (or_intror Hf)).
      apply R2. unfold auxs. apply in_map_iff. exists (y, u). auto.
  - apply (agree_L _ _ _ _ _ _ _ _ R6); auto.
Qed.

Definition lsound (lp : bool) (t : tm) (x : reg) (s : st) (c : list inst) (s' : st) : Prop :=
  wfs N0 s -> lvl N0 (vars t) -> tgt_ok N0 s x -> lp_ok kd lp s (vars t) -> KV s -> NoDup (vo (vars t)) -> forall L : nat -> Prop, (forall n, In n (vars t) -> kd n = KX -> L n) ->
  forall (P : nat -> Prop) m q m' q' e, (forall y, P y -> N0 <= y < nxt s) -> (forall y, x = T y -> ~ P y) -> exec c m q m' q' -> ms q = [] -> envok q -> agree L P s e m q ->
  exists e', (forall n, chg s s' (vars t) n \/ e' n = e n) /\ m' x = eval e' t /\ ms q' = [] /\ mg q' = mg q /\ envok q' /\ agree L P s' e' m' q'.
Lemma tnum_in : forall x y, In y (tnum x) -> x = T y.
Proof. intros [a|t] y H; cbn in H; [contradiction|]. destruct H as [->|[]]. reflexivity. Qed.
Lemma anum_in : forall x a, In a (anum x) -> x = A a.
Proof. intros [b|t] a H; cbn in H; [|contradiction]. destruct H as [->|[]]. reflexivity. Qed.
Lemma tgts_in : forall (l : list (reg * tm)) y, In y (flat_map (fun p => tnum (fst p)) l) -> In (T y) (map fst l).
Proof. intros l y H. apply in_flat_map in H. destruct H as (p & Hp & Hy). apply tnum_in in Hy. rewrite <- Hy. apply in_map. exact Hp. Qed.
Lemma gen_lst_load_sound : forall lp g l, (forall p, In p l -> forall s c s', g (snd p) (fst p) s = Some (c, s') -> (exists k, gen_load fl kd lp k (snd p) (fst p) s = Some (c, s')) /\ lsound lp (snd p) (fst p) s c s') ->
  forall s c s', gen_lst g l s = Some (c, s') -> wfs N0 s -> lvl N0 (lvars (map snd l)) -> (forall p, In p l -> tgt_ok N0 s (fst p)) -> NoDup (map fst l) -> lp_ok kd lp s (lvars (map snd l)) -> KV s -> NoDup (vo (lvars (map snd l))) ->
  shape kd N0 (flat_map (fun p => tnum (fst p)) l) (lvars (map snd l)) s s' c /\ aw c = flat_map (fun p => anum (fst p)) l /\
  forall L : nat -> Prop, (forall n, In n (lvars (map snd l)) -> kd n = KX -> L n) ->
  forall (P : nat -> Prop) m q m' q' e, (forall y, P y -> N0 <= y < nxt s) -> (forall y, In (T y) (map fst l) -> ~ P y) -> exec c m q m' q' -> ms q = [] -> envok q -> agree L P s e m q ->
  exists e', (forall n, chg s s' (lvars (map snd l)) n \/ e' n = e n) /\ (forall x t, In (x, t) l -> m' x = eval e' t) /\ ms q' = [] /\ mg q' = mg q /\ envok q' /\ agree L P s' e' m' q'.
Proof.
  intros lp g. induction l as [|(x, t) l IH]; intros HG s c s' E W HN HX ND HLP HK NV.
  - cbn in E. injection E as <- <-. split; [apply shape_nil|]. split; [reflexivity|]. intros L HL P m q m' q' e HP HXP H MS EO AG. cbn in H. destruct H as (-> & ->). exists e. split; [auto|]. split; [contradiction|]. auto.
  - cbn [gen_lst] in E. destruct (g t x s) as [(c1, s1)|] eqn:E1; [|discriminate E]. destruct (gen_lst g l s1) as [(c2, s2)|] eqn:E2; [|discriminate E]. injection E as <- <-.
    cbn [map fst snd lvars flat_map] in *. change (flat_map vars (map snd l)) with (lvars (map snd l)) in *. inversion ND as [|? ? ND1 ND2]; subst.
    destruct (HG (x, t) (or_introl eq_refl) s c1 s1 E1) as ((k & Ek) & US). cbn [fst snd] in *.
    assert (HN1 : lvl N0 (vars t)) by (intros n Hn; apply HN; apply in_app_iff; auto). assert (HN2 : lvl N0 (lvars (map snd l))) by (intros n Hn; apply HN; apply in_app_iff; auto).
    assert (HLP1 : lp_ok kd lp s (vars t)) by (intros Q n y Hn; apply (HLP Q n y); apply in_app_iff; auto).
    pose proof (HX (x, t) (or_introl eq_refl)) as HXx. cbn in HXx.
    pose proof (gen_load_shape fl kd N0 _ _ _ _ _ _ _ Ek W HN1 HXx HLP1) as S1. pose proof (sh_nxt _ _ _ _ _ _ _ S1) as L1.
    assert (W1 : wfs N0 s1) by (apply (shape_wfs _ _ _ _ _ _ _ S1 W); intros y Hy; apply tnum_in in Hy; apply (HXx y Hy)).
    assert (HLP2 : lp_ok kd lp s1 (lvars (map snd l))) by (apply (lp_ok_mono _ _ _ _ _ _ _ _ _ S1); intros Q n y Hn; apply (HLP Q n y); apply in_app_iff; auto).
    destruct (vo_nodup _ _ NV) as (N1 & N2 & N3).
    assert (HK1 : KV s1) by (apply (KV_mono _ _ _ _ _ S1 HK); [apply W|intros y Hy; apply tnum_in in Hy; apply (HXx y Hy)]).
    assert (HX1 : forall p, In p l -> tgt_ok N0 s1 (fst p)) by (intros p Hp u Hu; specialize (HX p (or_intror Hp) u Hu); lia).
    destruct (IH ltac:(intros p Hp; apply HG; right; exact Hp) s1 c2 s2 E2 W1 HN2 HX1 ND2 HLP2 HK1 N2) as (S2 & AW2 & IHS). pose proof (sh_nxt _ _ _ _ _ _ _ S2) as L2.
    pose proof (gen_load_aw fl kd N0 _ _ _ _ _ _ _ Ek W HN1 HXx HLP1) as AW1.
    assert (HD : forall y, In y (tnum x) -> In y (flat_map (fun p => tnum (fst p)) l) -> False) by (intros y Q1 Q2; apply tnum_in in Q1; apply tgts_in in Q2; subst x; contradiction).
    split; [|split].
    + apply (shape_app _ _ _ _ _ _ _ _ _ _ _ S1 S2 W); [|exact HD]. intros y Hy. rewrite in_app_iff in Hy. destruct Hy as [Hy|Hy]; [apply tnum_in in Hy; apply (HXx y Hy)|]. apply in_flat_map in Hy. destruct Hy as (p & Hp & Hy). apply tnum_in in Hy. apply (HX p (or_intror Hp) y Hy).
    + rewrite aw_app, AW1, AW2. reflexivity.
    + intros L HL P m q m' q' e HP HXP H MS EO AG. apply exec_app in H. destruct H as (mb & qb & H1 & H2).
      destruct (US W HN1 HXx HLP1 HK N1 L ltac:(intros n Hn; apply HL; apply in_app_iff; auto) P m q mb qb e HP ltac:(intros y Q; apply HXP; left; exact Q) H1 MS EO AG) as (e1 & A1 & A2 & A3 & A4 & A5 & A6).
      destruct (IHS L ltac:(intros n Hn; apply HL; apply in_app_iff; auto) P mb qb m' q' e1) as (e' & R1 & R2 & R3 & R4 & R5 & R6); auto.
      { intros y Hy. specialize (HP y Hy). lia. } { intros y Hy. apply HXP. right. exact Hy. }
      exists e'. split; [|split; [|split; [exact R3|split; [congruence|split; [exact R5|exact R6]]]]].
      * intros n. destruct (R1 n) as [Q|Q]; [left; apply (chg_app _ _ _ _ _ _ _ _ S1 L2); auto|]. destruct (A1 n) as [Q1|Q1]; [left; apply (chg_app _ _ _ _ _ _ _ _ S1 L2); auto|]. right. congruence.
      * intros y u [Q|Hp]; [|auto]. injection Q as <- <-. replace (m' x) with (mb x).
        -- rewrite A2. apply eval_ext. intros n Hn. destruct (R1 n) as [Q|Q]; [|auto]. exfalso. apply (not_chg _ _ _ _ _ _ _ S1 HN1 W N3 n Hn Q).
        -- symmetry. apply (keeps _ _ _ _ _ _ _ _ _ _ S2 H2).
           ++ intros a -> Q. rewrite AW2 in Q. apply in_flat_map in Q. destruct Q as (p & Hp & Q). apply anum_in in Q. apply ND1. rewrite <- Q. apply in_map. exact Hp.
           ++ intros z ->. split; [specialize (HXx z eq_refl); lia|]. intros Q. apply (HD z); [left; reflexivity|exact Q].
Qed.
Lemma gen_load_sound : forall lp k t x s c s', gen_load fl kd lp k t x s = Some (c, s') -> lsound lp t x s c s'.
Proof.
  intros lp.
  assert (HV : forall n x s c s', load_var kd lp n x s = (c, s') -> lsound lp (Tv n) x s c s').
  { intros n x s c s' E W HN HX HLP HK NV L HL P m q m' q' e HP HXP H MS EO AG. 
    destruct (load_var_sound L P lp n x s c s' m q m' q' e E) as (e' & R1 & R2 & R3 & R4); auto.
    - apply HN. left. reflexivity. - intros y Hy. apply (HP y Hy). - apply HL. left. reflexivity. - intros y Hy. split; [apply (HX y Hy)|auto]. - intros K Q. specialize (HK n K Q). specialize (HN n (or_introl eq_refl)). lia.
    - exists e'. split; [|split; [exact R3|exact R4]]. intros j. destruct (Nat.eq_dec j n) as [->|D]; [|auto]. destruct (known_dec s n); [auto|]. left. left. cbn. auto. }
  assert (HC : forall b x s, lsound lp (Tc b) x s [put_arg (i_put_const b) x] s).
  { intros b x s W HN HX HLP HK NV L HL P m q m' q' e HP HXP H MS EO AG. single H. destruct HS as (v & o & -> & NL & _ & HS & ->). exists e. split; [auto|]. cbn [writes]. split; [rewrite write_same; exact HS|]. split; [auto|]. split; [auto|]. split; [auto|]. apply agree_write; [exact AG|]. intros y Hy. split; [apply (HX y Hy)|auto]. }
  induction k as [|k IH]; intros t x s c s' E; (destruct t as [n|b|f l]; [injection E as E; apply HV; exact E|injection E as <- <-; apply HC|]); [discriminate E|].
  pose proof E as ESH. rewrite gen_load_Tf in E. intros W HN HX HLP HK NV L HL P m q m' q' e HP HXP H MS EO AG. pose proof W as (W2 & W3). rewrite vars_Tf in *. destruct (as_meta f l) as [(md, g)|] eqn:EM.
  - apply as_meta_some in EM. destruct EM as (-> & ->). destruct (new_reg s) as (x1, s1) eqn:EN. destruct (gen_load fl kd lp k g (T x1) s1) as [(c1, s2)|] eqn:E1; [|discriminate E]. injection E as <- <-.
    assert (W1 : wfs N0 s1) by (pose proof (new_reg_wfs N0 s W) as Q; rewrite EN in Q; exact Q). injection EN as <- <-. cbn [nxt] in *.
    assert (VG : lvars [Tc (Catm md); g] = vars g) by (unfold lvars; cbn; rewrite app_nil_r; reflexivity). rewrite VG in *.
    apply exec_app in H. destruct H as (mb & qb & H1 & H2).
    assert (TG : tgt_ok N0 (St (S (nxt s)) (inf s)) (T (nxt s))) by (intros y Hy; injection Hy as <-; cbn; lia).
    destruct (IH _ _ _ _ _ E1 W1 HN TG HLP HK NV L HL P m q mb qb e) as (e1 & A1 & A2 & A3 & A4 & A5 & A6); auto.
    { intros y Hy. specialize (HP y Hy). cbn. lia. } { intros y Hy Q. injection Hy as <-. specialize (HP _ Q). lia. } { destruct AG; constructor; auto. }
    single H2. destruct HS as (v & o & -> & NL & _ & HS & ->). pose proof (gen_load_shape fl kd N0 _ _ _ _ _ _ _ E1 W1 HN TG HLP) as S1. pose proof (sh_nxt _ _ _ _ _ _ _ S1) as L1. cbn in L1.
    exists e1. split; [|split; [cbn [map writes fst]; rewrite write_same, HS, A2; reflexivity|split; [exact A3|split; [exact A4|split; [exact A5|]]]]].
    + intros n. destruct (A1 n) as [[Q|Q]|Q]; [left; left; exact Q|left; right; cbn in Q; lia|auto].
    + cbn [map writes fst]. apply agree_write; [exact A6|]. intros y Hy. split; [apply (HX y Hy)|auto].
  - destruct (flat fl false (Tf f l) s) as ((fa, ax), s1) eqn:EF. apply flat_Flat in EF.
    destruct (gen_lst (gen_load fl kd lp k) (auxs ax) s1) as [(c1, s2)|] eqn:EL; [|discriminate E]. destruct (gen_sub kd [] fa s2) as (c2, s3) eqn:ES. injection E as <- <-.
    destruct (Flat_shape _ _ _ _ _ _ EF) as (F1 & F2 & F3 & F4 & F5 & F6 & F7). destruct (Flat_inf N0 _ _ _ _ _ _ EF W) as (W1 & F8 & F9).
    assert (HP' : forall n, In n (fvars fa ++ lvars (map snd ax)) <-> In n (lvars l)) by (intros n; split; apply Permutation_in; [exact F6|symmetry; exact F6]).
    assert (HXX : forall y, In y (map fst ax) -> nxt s <= y < nxt s1) by (intros y Hy; rewrite F4 in Hy; apply in_seq in Hy; lia).
    assert (NV1 : NoDup (vo (lvars (map snd ax) ++ fvars fa))) by (apply (Permutation_NoDup (l := vo (lvars l))); [apply vo_perm; rewrite <- F6; apply Permutation_app_comm|exact NV]).
    destruct (vo_nodup _ _ NV1) as (N1 & N2 & N3).
    assert (HN1 : lvl N0 (fvars fa)) by (intros n Hn; apply HN; apply HP'; apply in_app_iff; auto). assert (HN2 : lvl N0 (lvars (map snd ax))) by (intros n Hn; apply HN; apply HP'; apply in_app_iff; auto).
    assert (K1 : KV s1). { intros n K EK. destruct (le_lt_dec N0 n) as [Q|Q]; [exact Q|]. apply HK; [|exact EK]. unfold known in *. rewrite F8 in K by lia. exact K. }
    assert (TGX : flat_map (fun p : reg * tm => tnum (fst p)) (auxs ax) = map fst ax) by (clear; induction ax as [|(y, u) ax IHa]; cbn; [reflexivity|f_equal; exact IHa]).
    destruct (gen_lst_load_sound lp (gen_load fl kd lp k) (auxs ax)) with (s := s1) (c := c1) (s' := s2) as (S1 & AW1 & LS); auto; try (rewrite auxs_snd; assumption).
    { intros p _ sa ca sb Ea. split; [eauto|]. apply (IH _ _ _ _ _ Ea). }
    { intros p Hp. unfold auxs in Hp. apply in_map_iff in Hp. destruct Hp as ((y, u) & <- & Hp). intros z Hz. injection Hz as <-. apply (in_map fst) in Hp. specialize (HXX _ Hp). cbn in *. lia. }
    { rewrite auxs_fst, F4. apply FinFun.Injective_map_NoDup; [intros a b Q; injection Q; auto|apply seq_NoDup]. }
    { rewrite auxs_snd. intros Q n y Hn EK. specialize (HN2 n Hn) as Q2. unfold known. rewrite F8 by lia. apply (HLP Q n y); [|exact EK]. apply HP'. apply in_app_iff. auto. }
    rewrite auxs_snd, TGX in *. assert (W4 : wfs N0 s2) by (apply (shape_wfs _ _ _ _ _ _ _ S1 W1); intros y Hy; apply (HXX y Hy)).
    pose proof (sh_nxt _ _ _ _ _ _ _ S1) as L12.
    assert (K2 : KV s2) by (apply (KV_mono _ _ _ _ _ S1 K1); [apply W1|intros y Hy; specialize (HXX y Hy); lia]).
    assert (AXo : forall y, In y (fx fa) -> aux_ok N0 false s2 y).
    { intros y Hy. rewrite F1 in Hy. split; [specialize (HXX y Hy); lia|]. rewrite (sh_mono _ _ _ _ _ _ _ S1); [apply (F9 y Hy)|unfold known; rewrite (F9 y Hy); discriminate]. }
    assert (NDx : NoDup (fx fa)) by (rewrite F1, F4; apply seq_NoDup).
    assert (S2 : shape kd N0 (wr_aux false fa) ([] ++ fvars fa) s2 s3 c2) by (apply (gen_sub_shape kd N0 false fa [] _ _ _ ES W4); auto; intros n []).
    cbn [app wr_aux] in S2. pose proof (sh_nxt _ _ _ _ _ _ _ S2) as L23.
    assert (SO : sub_ok false L [] fa s2 s3 c2).
    { apply (gen_sub_sound false fa L [] _ _ _ ES W4); auto. - intros n []. - intros n Hn. apply HL. apply HP'. apply in_app_iff. auto. }
    apply exec_app in H. destruct H as (mb & qb & H1 & H2). cbn [Clause_Exec.exec] in H2. destruct H2 as (ma & qa & (v & o & -> & NL & _ & vs & V1 & V2 & ->) & H2). cbn [map writes fst] in H2.
    destruct (LS L ltac:(intros n Hn; apply HL; apply HP'; apply in_app_iff; auto) P m q mb qb e) as (e1 & A1 & A2 & A3 & A4 & A5 & A6); auto.
    { intros y Hy. specialize (HP y Hy). lia. }
    { intros y Hy Q. rewrite auxs_fst in Hy. apply in_map_iff in Hy. destruct Hy as (z & Hz & Hy). injection Hz as ->. specialize (HXX y Hy). specialize (HP y Q). lia. }
    { destruct AG as [G1 G2 G3]. constructor; auto.
      - intros n Hn EK K HLn. apply G1; auto. unfold known in *. rewrite F8 in K by lia. exact K.
      - intros n y Hn EK K. apply G2; auto. unfold known in *. rewrite F8 in K by lia. exact K. }
    pose (e2 := fun n => if in_dec Nat.eq_dec n (map fst ax) then mb (T n) else e1 n).
    assert (E2x : forall n, In n (map fst ax) -> e2 n = mb (T n)) by (intros n Hn; unfold e2; destruct (in_dec Nat.eq_dec n (map fst ax)); [reflexivity|contradiction]).
    assert (E2o : forall n, ~ In n (map fst ax) -> e2 n = e1 n) by (intros n Hn; unfold e2; destruct (in_dec Nat.eq_dec n (map fst ax)); [contradiction|reflexivity]).
    assert (E2v : forall n, n < N0 -> e2 n = e1 n) by (intros n Hn; apply E2o; intros Q; specialize (HXX n Q); lia).
    assert (AG2 : agree L (fun y => P y \/ In y (map fst ax)) s2 e2 (write V mb x v) (set_s V qb vs)).
    { apply agree_set_s. apply agree_write.
      - destruct A6 as [G1 G2 G3]. constructor.
        + intros n Hn EK K HLn. rewrite (E2v n Hn). auto.
        + intros n y Hn EK K. rewrite (E2v n Hn). auto.
        + intros y [Hy|Hy]; [|symmetry; apply E2x; exact Hy]. rewrite E2o; [auto|]. intros Q. specialize (HXX y Q). specialize (HP y Hy). lia.
      - intros y Hy. pose proof (HX y Hy) as Q. split; [lia|]. intros [Q1|Q1]; [apply (HXP y Hy Q1)|]. specialize (HXX y Q1). lia. }
    destruct (SO (fun y => P y \/ In y (map fst ax)) (write V mb x v) (set_s V qb vs) m' q' e2) as (e' & R1 & R2 & R3 & R4 & R5 & R6); auto.
    { intros y [Hy|Hy]; [apply (HP y Hy)|specialize (HXX y Hy); lia]. }
    { intros y Hy. right. rewrite <- F1. exact Hy. }
    { cbn. lia. }
    cbn [map app Clause_Spec.ms set_s] in R2. cbn [app] in R1.
    assert (R1' : forall n, ~ (In n (fvars fa) /\ ~ known s2 n) -> e' n = e2 n) by (intros n Hn; destruct (R1 n) as [Q|[(Q & _)|Q]]; [contradiction|discriminate Q|exact Q]).
    assert (KT : m' x = write V mb x v x).
    { apply (keeps _ _ _ _ _ _ _ _ _ _ S2 H2).
      - intros a Ha. pose proof (gen_sub_aw kd fa [] s2) as Q. rewrite ES in Q. cbn [fst] in Q. rewrite Q. auto.
      - intros y Hy. split; [specialize (HX y Hy); lia|intros []]. }
    exists e'. split; [|split; [|split; [exact R3|split; [rewrite R4; exact A4|split; [exact R5|]]]]].
    + intros n. destruct (R1 n) as [(Q1 & Q2)|[(Q & _)|Q]]; [|discriminate Q|].
      * left. left. split; [apply HP'; apply in_app_iff; auto|]. intros K. apply Q2. apply (known_mono _ _ _ _ _ _ _ _ S1). unfold known in *. rewrite F8; [exact K|]. specialize (HN1 n Q1). lia.
      * destruct (in_dec Nat.eq_dec n (map fst ax)) as [Hn|Hn]; [left; right; specialize (HXX n Hn); lia|]. rewrite Q, (E2o n Hn). destruct (A1 n) as [[(Q1 & Q2)|Q1]|Q1]; [|left; right; lia|auto].
        left. left. split; [apply HP'; apply in_app_iff; auto|]. intros K. apply Q2. unfold known in *. rewrite F8; [exact K|]. specialize (HN2 n Q1). lia.
    + rewrite KT, write_same, V2. cbn [Clause_Spec.eval]. f_equal. rewrite R2, <- (Flat_vals _ _ _ _ _ _ EF e'); [reflexivity|].
      intros y u Hy. assert (Hf : In y (map fst ax)) by (apply (in_map fst) in Hy; exact Hy). specialize (HXX y Hf) as Q.
      rewrite R1' by (intros (Q1 & _); specialize (HN1 y Q1); lia). rewrite (E2x y Hf), (A2 (T y) u) by (unfold auxs; apply in_map_iff; exists (y, u); auto).
      apply eval_ext. intros n Hn. assert (Hn2 : In n (lvars (map snd ax))) by (apply (lvars_in _ u); [apply (in_map snd) in Hy; exact Hy|exact Hn]).
      rewrite R1'; [symmetry; apply E2v; apply HN2; exact Hn2|]. intros (Q1 & Q2). apply Q2. apply (sh_vars _ _ _ _ _ _ _ S1 n Hn2). apply (N3 n Hn2 Q1).
    + apply (agree_L _ _ _ _ _ _ _ _ R6); auto.
Qed.
End Values.
