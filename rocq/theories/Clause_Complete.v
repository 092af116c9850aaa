(** C60: with values of the variables there is an execution of the code of a term, which reads no register
    which is not defined. *)
Require Import List Bool Arith Lia Permutation.
Require Import Verif.RegAlloc_Model Verif.RegAlloc_Spec Verif.RegAlloc_Graph Verif.Clause_Model Verif.Clause_Spec Verif.Clause_Exec Verif.Clause_Shape Verif.Clause_Sound.
Import ListNotations.

Section Complete.
Variable V : Type.
Variable cst : const -> V.
Variable fn : nat -> list V -> V.
Variable fl : flags.
Variable kd : nat -> kind.
Variable N0 : nat.
Hypothesis kd_inj : forall n n' y, n < N0 -> n' < N0 -> kd n = KY y -> kd n' = KY y -> n = n'.
Notation eval := (eval V cst fn).
Notation get_y := (get_y V).
Notation me := (me V).
Notation ms := (ms V).
Notation mg := (mg V).
Notation pexec := (pexec V cst fn).
Notation envok := (envok V kd N0).
Notation sub_vals := (sub_vals V cst fn).
Notation KV := (KV kd N0).

Record pagree (L P : nat -> Prop) (s : st) (e : nat -> V) (d : reg -> option V) (q : mach V) : Prop := PAgr {
  pag_x : forall n, n < N0 -> kd n = KX -> known s n -> L n -> d (T n) = Some (e n);
  pag_y : forall n y, n < N0 -> kd n = KY y -> known s n -> get_y q y = Some (e n);
  pag_p : forall x, P x -> d (T x) = Some (e x) }.
Lemma pagree_set_s : forall (L P : nat -> Prop) s e m q l, pagree L P s e m q <-> pagree L P s e m (set_s V q l).
Proof. intros L P s e m q l. split; intros [H1 H2 H3]; constructor; auto. Qed.
Lemma pagree_L : forall (L L' P P' : nat -> Prop) s e m q, pagree L P s e m q -> (forall n, L' n -> L n) -> (forall n, P' n -> P n) -> pagree L' P' s e m q.
Proof. intros L L' P P' s e m q [H1 H2 H3] HL HP. constructor; auto. Qed.
Lemma pagree_e : forall (L P : nat -> Prop) s e e' m q, pagree L P s e m q -> (forall n, n < N0 \/ P n -> e' n = e n) -> pagree L P s e' m q.
Proof. intros L P s e e' m q [H1 H2 H3] HE. constructor; intros; rewrite HE; auto. Qed.
Lemma pagree_new_x : forall (L P : nat -> Prop) s e d q n i, pagree L P s e d q -> n < N0 -> kd n = KX -> (forall x, P x -> N0 <= x) -> pagree L P (set_inf s n i) e (write _ d (T n) (Some (e n))) q.
Proof.
  intros L P s e d q n i [H1 H2 H3] Hn EK HP. constructor.
  - intros k Hk EKk K HL. destruct (Nat.eq_dec k n) as [->|D]; [rewrite write_same; reflexivity|]. rewrite write_other by congruence. apply known_set in K. destruct K; [auto|contradiction].
  - intros k y Hk EKk K. assert (D : k <> n) by congruence. apply known_set in K. destruct K; [auto|contradiction].
  - intros x Hx. specialize (HP x Hx) as Q. rewrite write_other by (intros E; injection E; lia). auto.
Qed.
Lemma pagree_new_y : forall (L P : nat -> Prop) s e d q n y i, pagree L P s e d q -> envok q -> n < N0 -> kd n = KY y -> pagree L P (set_inf s n i) e d (set_y V q y (e n)).
Proof.
  intros L P s e d q n y i [H1 H2 H3] (_ & EO) Hn EK. constructor; auto.
  - intros k Hk EKk K HL. assert (D : k <> n) by congruence. apply known_set in K. destruct K; [auto|contradiction].
  - intros k z Hk EKk K. destruct (Nat.eq_dec k n) as [->|D].
    + assert (z = y) by congruence. subst z. apply set_y_same. eauto.
    + rewrite set_y_other; [apply known_set in K; destruct K; [auto|contradiction]|]. intros ->. apply D. eauto.
Qed.
Lemma pagree_write : forall (L P : nat -> Prop) s e d q x v, pagree L P s e d q -> (forall t, x = T t -> N0 <= t /\ ~ P t) -> pagree L P s e (write _ d x v) q.
Proof.
  intros L P s e m q x v [H1 H2 H3] HX. constructor; auto.
  - intros k Hk EKk K HL. rewrite write_other; [auto|]. intros ->. destruct (HX k eq_refl). lia.
  - intros k Hk. rewrite write_other; [auto|]. intros ->. destruct (HX k eq_refl). contradiction.
Qed.
Lemma pexec_cons : forall i l d q d1 q1 d' q', pexec1 V cst fn i d q d1 q1 -> pexec l d1 q1 d' q' -> pexec (i :: l) d q d' q'.
Proof. intros. cbn. eauto. Qed.
Lemma pexec_one : forall i d q d' q', pexec1 V cst fn i d q d' q' -> pexec [i] d q d' q'.
Proof. intros i d q d' q' H. cbn. eauto. Qed.

(** ** Variables *)
Definition done (L P : nat -> Prop) (s' : st) (e : nat -> V) (q : mach V) (d' : reg -> option V) (q' : mach V) : Prop :=
  ms q' = [] /\ mg q' = mg q /\ envok q' /\ pagree L P s' e d' q'.
Lemma unif_var_complete : forall (L P : nat -> Prop) n x s c s' d q e, unif_var kd n x s = (c, s') -> n < N0 -> (forall x, P x -> N0 <= x) -> (kd n = KX -> L n) -> KV s ->
  ms q = [] -> envok q -> pagree L P s e d q -> d x = Some (e n) -> exists d' q', pexec c d q d' q' /\ done L P s' e q d' q'.
Proof.
  intros L P n x s c s' d q e E Hn HP HL HK MS EO AG DX. unfold unif_var in E. destruct (inf s n) as [i|] eqn:EI.
  - assert (K : known s n) by (unfold known; congruence). destruct (kd n) eqn:EK; injection E as <- <-; [|exfalso; specialize (HK n K EK); lia|].
    + exists d, q. split; [|split; [exact MS|split; [reflexivity|split; auto]]]. apply pexec_one. exists (e n), [e n; e n]. split; [cbn; rewrite DX, (pag_x _ _ _ _ _ _ AG); auto|]. split; [reflexivity|]. split; [apply EO|]. cbn. auto.
    + exists d, q. split; [|split; [exact MS|split; [reflexivity|split; auto]]]. apply pexec_one. exists (e n), [e n]. split; [cbn; rewrite DX; auto|]. split; [reflexivity|]. split; [apply EO|]. split; [exact MS|]. split; [apply (pag_y _ _ _ _ _ _ AG n y Hn EK K)|reflexivity].
  - destruct (kd n) eqn:EK; injection E as <- <-.
    + exists (write _ d (T n) (Some (e n))), q. split; [apply pexec_one; cbn; rewrite DX; split; [discriminate|auto]|]. split; [exact MS|]. split; [reflexivity|]. split; [exact EO|]. apply pagree_new_x; auto.
    + exists d, q. split; [cbn; auto|]. split; [exact MS|]. auto.
    + exists d, (set_y V q y (e n)). split; [|split; [rewrite set_y_ms; exact MS|split; [apply set_y_mg|split; [apply set_y_envok; exact EO|apply pagree_new_y; auto]]]].
      apply pexec_one. exists (e n), [e n]. split; [cbn; rewrite DX; auto|]. split; [reflexivity|]. split; [apply EO|]. split; [exact MS|]. split; [apply (proj2 EO n y Hn EK)|reflexivity].
Qed.
Lemma load_var_complete : forall (L P : nat -> Prop) lp n x s c s' d q e, load_var kd lp n x s = (c, s') -> n < N0 -> (forall x, P x -> N0 <= x) -> (kd n = KX -> L n) -> KV s -> (forall t, x = T t -> N0 <= t /\ ~ P t) -> lp_ok kd lp s [n] ->
  ms q = [] -> envok q -> pagree L P s e d q -> exists d' q', pexec c d q d' q' /\ d' x = Some (e n) /\ done L P s' e q d' q'.
Proof.
  intros L P lp n x s c s' d q e E Hn HP HL HK HX HLP MS EO AG. unfold load_var in E. destruct (inf s n) as [i|] eqn:EI.
  - assert (K : known s n) by (unfold known; congruence). destruct (kd n) eqn:EK; injection E as <- <-; [|exfalso; specialize (HK n K EK); lia|].
    + pose proof (pag_x _ _ _ _ _ _ AG n Hn EK K (HL eq_refl)) as Q. exists (write _ d x (d (T n))), q. split; [apply pexec_one; cbn; rewrite Q; split; [discriminate|auto]|]. split; [rewrite write_same; exact Q|]. split; [exact MS|]. split; [reflexivity|]. split; [exact EO|]. apply pagree_write; auto.
    + pose proof (pag_y _ _ _ _ _ _ AG n y Hn EK K) as Q. exists (write _ d x (Some (e n))), q. split; [|split; [rewrite write_same; reflexivity|split; [exact MS|split; [reflexivity|split; [exact EO|apply pagree_write; auto]]]]].
      apply pexec_one. exists (e n), []. split; [reflexivity|]. split; [reflexivity|]. split; [apply EO|]. destruct i; try destruct lp; cbn; auto.
  - destruct (kd n) eqn:EK; injection E as <- <-.
    + exists (write _ (write _ d (T n) (Some (e n))) x (Some (e n))), q. split; [|split; [rewrite write_same; reflexivity|split; [exact MS|split; [reflexivity|split; [exact EO|apply pagree_write; auto; apply pagree_new_x; auto]]]]].
      apply pexec_one. exists (e n), []. split; [reflexivity|]. split; [reflexivity|]. split; [apply EO|]. cbn. auto.
    + exists (write _ d x (Some (e n))), q. split; [|split; [rewrite write_same; reflexivity|split; [exact MS|split; [reflexivity|split; [exact EO|apply pagree_write; auto]]]]].
      apply pexec_one. exists (e n), []. split; [reflexivity|]. split; [reflexivity|]. split; [apply EO|]. cbn. auto.
    + destruct lp; [exfalso; apply (HLP eq_refl n y (or_introl eq_refl) EK); exact EI|].
      exists (write _ d x (Some (e n))), (set_y V q y (e n)). split; [|split; [rewrite write_same; reflexivity|split; [rewrite set_y_ms; exact MS|split; [apply set_y_mg|split; [apply set_y_envok; exact EO|apply pagree_write; auto; apply pagree_new_y; auto]]]]].
      apply pexec_one. exists (e n), []. split; [reflexivity|]. split; [reflexivity|]. split; [apply EO|]. split; [exact MS|]. split; [apply (proj2 EO n y Hn EK)|reflexivity].
Qed.
Definition subd (L P : nat -> Prop) (s' : st) (e : nat -> V) (q : mach V) (l : list V) (d' : reg -> option V) (q' : mach V) : Prop :=
  ms q' = l /\ mg q' = mg q /\ envok q' /\ pagree L P s' e d' q'.
Lemma sub_var_complete : forall (L P : nat -> Prop) n s c s' d q e l, sub_var n (kd n) s = (c, s') -> n < N0 -> (forall x, P x -> N0 <= x) -> (kd n = KX -> L n) -> kd n <> KVoid ->
  envok q -> pagree L P s e d q -> ms q = e n :: l -> exists d' q', pexec c d q d' q' /\ subd L P s' e q l d' q'.
Proof.
  intros L P n s c s' d q e l E Hn HP HL NV EO AG MS. unfold sub_var in E. destruct (inf s n) as [i|] eqn:EI.
  - assert (K : known s n) by (unfold known; congruence). exists d, (set_s V q l). destruct (kd n) eqn:EK; [|congruence|].
    + assert (Q : s' = s /\ exists k, c = [unify_value_x k (T n)]) by (destruct i; injection E as <- <-; eauto). destruct Q as (-> & k & ->). split; [|split; [reflexivity|split; [reflexivity|split; [exact EO|apply pagree_set_s; exact AG]]]].
      apply pexec_one. exists (e n), [e n]. split; [cbn; rewrite (pag_x _ _ _ _ _ _ AG); auto|]. split; [reflexivity|]. split; [apply EO|]. cbn. exists l. auto.
    + assert (Q : s' = s /\ (c = [other (i_unify_value_y y)] \/ c = [other (i_unify_local_value_y y)])) by (destruct i; injection E as <- <-; auto). destruct Q as (-> & Q). split; [|split; [reflexivity|split; [reflexivity|split; [exact EO|apply pagree_set_s; exact AG]]]].
      pose proof (pag_y _ _ _ _ _ _ AG n y Hn EK K) as QY.
      destruct Q as [->| ->]; apply pexec_one; exists (e n), []; (split; [reflexivity|]; split; [reflexivity|]; split; [apply EO|]; exists (e n), l; auto).
  - destruct (kd n) eqn:EK; [|congruence|]; injection E as <- <-.
    + exists (write _ d (T n) (Some (e n))), (set_s V q l). split; [|split; [reflexivity|split; [reflexivity|split; [exact EO|apply pagree_set_s; apply pagree_new_x; auto]]]].
      apply pexec_one. exists (e n), []. split; [reflexivity|]. split; [reflexivity|]. split; [apply EO|]. cbn. exists l. auto.
    + exists d, (set_s V (set_y V q y (e n)) l). split; [|split; [reflexivity|split; [apply set_y_mg|split; [apply set_s_envok, set_y_envok; exact EO|apply pagree_set_s; apply pagree_new_y; auto]]]].
      apply pexec_one. exists (e n), []. split; [reflexivity|]. split; [reflexivity|]. split; [apply EO|]. exists (e n), l. split; [exact MS|]. split; [apply (proj2 EO n y Hn EK)|reflexivity].
Qed.
Lemma sub_aux_complete : forall hb (L P : nat -> Prop) x s c s' d q e l, sub_var x KX s = (c, s') -> aux_ok N0 hb s x -> (if hb then True else P x) ->
  envok q -> pagree L P s e d q -> ms q = e x :: l -> exists d' q', pexec c d q d' q' /\ subd L (fun y => P y \/ y = x) s' e q l d' q'.
Proof.
  intros hb L P x s c s' d q e l E (AX & EI) HB EO AG MS. unfold sub_var in E. rewrite EI in E. destruct hb; injection E as <- <-.
  - exists (write _ d (T x) (Some (e x))), (set_s V q l). split; [|split; [reflexivity|split; [reflexivity|split; [exact EO|]]]].
    + apply pexec_one. exists (e x), []. split; [reflexivity|]. split; [reflexivity|]. split; [apply EO|]. cbn. exists l. auto.
    + apply pagree_set_s. destruct AG as [H1 H2 H3]. constructor.
      * intros k Hk EKk K HL. rewrite write_other by (intros Q; injection Q; lia). apply known_set in K. destruct K; [auto|lia].
      * intros k y Hk EKk K. apply known_set in K. destruct K; [auto|lia].
      * intros y Hy. destruct (Nat.eq_dec y x) as [->|D]; [rewrite write_same; reflexivity|]. rewrite write_other by congruence. destruct Hy; [auto|contradiction].
  - exists d, (set_s V q l). split; [|split; [reflexivity|split; [reflexivity|split; [exact EO|]]]].
    + apply pexec_one. exists (e x), [e x]. split; [cbn; rewrite (pag_p _ _ _ _ _ _ AG); auto|]. split; [reflexivity|]. split; [apply EO|]. cbn. exists l. auto.
    + apply pagree_set_s. apply (pagree_L _ _ _ _ _ _ _ _ AG); [auto|]. intros y [Hy| ->]; auto.
Qed.
Lemma voids_complete : forall v d q l1 l2, me q <> Left V -> ms q = l1 ++ l2 -> length l1 = length v -> pexec (voids v) d q d (set_s V q l2).
Proof.
  intros [|n v] d q l1 l2 NL H1 H2.
  - destruct l1; [|discriminate H2]. cbn in *. split; [reflexivity|]. destruct q; cbn in *. subst. reflexivity.
  - apply pexec_one. destruct l1 as [|u l1]; [discriminate H2|]. exists u, []. split; [reflexivity|]. split; [reflexivity|]. split; [exact NL|]. exists (u :: l1), l2. auto.
Qed.
Definition psub_ok (hb : bool) (L : nat -> Prop) (v : list nat) (l : fargs) (s s' : st) (c : list inst) : Prop :=
  forall (P : nat -> Prop) d q e, (forall x, P x -> N0 <= x) -> (forall x, In x (fx l) -> if hb then True else P x) ->
  envok q -> pagree L P s e d q -> ms q = map e v ++ sub_vals e l ->
  exists d' q', pexec c d q d' q' /\ subd L (fun y => P y \/ In y (fx l)) s' e q [] d' q'.
Lemma psub_ok_voids : forall hb L v l s s' c, psub_ok hb L [] l s s' c -> psub_ok hb L v l s s' (voids v ++ c).
Proof.
  intros hb L v l s s' c SO P d q e HP HB EO AG MS.
  destruct (SO P d (set_s V q (sub_vals e l)) e HP HB EO) as (d' & q' & H & R); [apply pagree_set_s; exact AG|reflexivity|].
  exists d', q'. split; [|exact R]. apply pexec_app. exists d, (set_s V q (sub_vals e l)). split; [|exact H]. apply (voids_complete _ _ _ (map e v)); [apply EO|exact MS|apply map_length].
Qed.
Lemma gen_sub_complete : forall hb l (L : nat -> Prop) v s c s', gen_sub kd v l s = (c, s') -> (forall n, In n (fvars l) -> n < N0) ->
  (forall x, In x (fx l) -> aux_ok N0 hb s x) -> NoDup (fx l) -> arity_ok l -> (forall n, In n (fvars l) -> kd n = KX -> L n) -> psub_ok hb L v l s s' c.
Proof.
  intros hb. induction l as [|[n|b|x t] l IH|f n l IH]; intros L v s c s' E HN HX ND AR HL.
  - cbn in E. injection E as <- <-. rewrite <- (app_nil_r (voids v)). apply psub_ok_voids.
    intros P d q e HP HB EO AG MS. exists d, q. split; [cbn; auto|]. split; [exact MS|]. split; [reflexivity|]. split; [exact EO|]. apply (pagree_L _ _ _ _ _ _ _ _ AG); [auto|]. intros k [Hk|[]]. exact Hk.
  - cbn [gen_sub] in E. cbn [fvars fx flen arity_ok] in *. unfold is_void in E. assert (ON : kd n = KVoid \/ kd n <> KVoid) by (destruct (kd n); auto; right; discriminate).
    destruct ON as [EK|NVn].
    + rewrite EK in E. assert (SO : psub_ok hb L (v ++ [n]) l s s' c) by (apply IH; auto; intros k Hk; [apply HN|apply HL]; right; exact Hk).
      intros P d q e HP HB EO AG MS. apply SO; auto. rewrite MS. cbn [sub_vals]. rewrite map_app, <- app_assoc. reflexivity.
    + assert (E' : (let (c1, s) := sub_var n (kd n) s in let (c2, s) := gen_sub kd [] l s in (voids v ++ c1 ++ c2, s)) = (c, s')) by (destruct (kd n); [exact E|congruence|exact E]). clear E.
      destruct (sub_var n (kd n) s) as (c1, s1) eqn:E1. destruct (gen_sub kd [] l s1) as (c2, s2) eqn:E2. injection E' as <- <-.
      assert (Ln : n < N0) by (apply HN; left; reflexivity). pose proof (sub_var_shape kd N0 _ _ _ _ E1 Ln NVn) as S1. apply psub_ok_voids.
      assert (SO : psub_ok hb L [] l s1 s2 c2).
      { apply IH; auto; try (intros k Hk; apply HN || apply HL; right; exact Hk). intros y Hy. apply (aux_ok_mono _ _ _ _ _ _ _ _ _ S1 (HX y Hy)). intros []. }
      intros P d q e HP HB EO AG MS. cbn [sub_vals map app Clause_Sound.sub_vals] in MS.
      destruct (sub_var_complete L P n s c1 s1 d q e _ E1 Ln HP ltac:(apply HL; left; reflexivity) NVn EO AG MS) as (d1 & q1 & H1 & A1 & A2 & A3 & A4).
      destruct (SO P d1 q1 e HP HB A3 A4 A1) as (d' & q' & H2 & R1 & R2 & R3). exists d', q'. split; [apply pexec_app; eauto|]. split; [exact R1|]. split; [congruence|exact R3].
  - cbn [gen_sub] in E. cbn [fvars fx flen arity_ok] in *. destruct (gen_sub kd [] l s) as (c2, s2) eqn:E2. injection E as <- <-. apply psub_ok_voids.
    assert (SO : psub_ok hb L [] l s s2 c2) by (apply IH; auto). intros P d q e HP HB EO AG MS. cbn [map app Clause_Sound.sub_vals] in MS.
    destruct (SO P d (set_s V q (sub_vals e l)) e HP HB EO) as (d' & q' & H2 & R); [apply pagree_set_s; exact AG|reflexivity|]. exists d', q'. split; [|exact R].
    apply (pexec_cons _ _ _ _ d (set_s V q (sub_vals e l))); [|exact H2]. exists (cst b), []. split; [reflexivity|]. split; [reflexivity|]. split; [apply EO|]. cbn. eauto.
  - cbn [gen_sub] in E. cbn [fvars fx flen arity_ok] in *. destruct (sub_var x KX s) as (c1, s1) eqn:E1. destruct (gen_sub kd [] l s1) as (c2, s2) eqn:E2. injection E as <- <-.
    inversion ND as [|? ? ND1 ND2]; subst. apply psub_ok_voids.
    pose proof (sub_aux_shape kd N0 hb _ _ _ _ E1 (HX x (or_introl eq_refl))) as S1.
    assert (XB : forall k, In k (if hb then [x] else []) -> k = x) by (intros k Hk; destruct hb; cbn in Hk; intuition).
    assert (SO : psub_ok hb L [] l s1 s2 c2).
    { apply IH; auto. intros y Hy. apply (aux_ok_mono _ _ _ _ _ _ _ _ _ S1 (HX y (or_intror Hy))). intros Q. rewrite (XB y Q) in Hy. contradiction. }
    intros P d q e HP HB EO AG MS. cbn [map app Clause_Sound.sub_vals] in MS.
    destruct (sub_aux_complete hb L P x s c1 s1 d q e _ E1 (HX x (or_introl eq_refl)) (HB x (or_introl eq_refl)) EO AG MS) as (d1 & q1 & H1 & A1 & A2 & A3 & A4).
    destruct (SO (fun y => P y \/ y = x) d1 q1 e) as (d' & q' & H2 & R1 & R2 & R3 & R4); auto.
    { intros y [Hy| ->]; [auto|apply (HX x (or_introl eq_refl))]. }
    { intros y Hy. specialize (HB y (or_intror Hy)). destruct hb; auto. }
    exists d', q'. split; [apply pexec_app; eauto|]. split; [exact R1|]. split; [congruence|]. split; [exact R3|]. apply (pagree_L _ _ _ _ _ _ _ _ R4); [auto|]. cbn. intros y Hy. intuition.
  - cbn [gen_sub] in E. cbn [fvars fx flen arity_ok] in *. destruct AR as (-> & AR). destruct (gen_sub kd [] l s) as (c2, s2) eqn:E2. injection E as <- <-. apply psub_ok_voids.
    assert (SO : psub_ok hb L [] l s s2 c2) by (apply IH; auto). intros P d q e HP HB EO AG MS. cbn [map app Clause_Sound.sub_vals] in MS.
    destruct (SO P d (set_s V q (sub_vals e l)) e HP HB EO) as (d' & q' & H2 & R); [apply pagree_set_s; exact AG|reflexivity|]. exists d', q'. split; [|exact R].
    apply (pexec_cons _ _ _ _ d (set_s V q (sub_vals e l))); [|exact H2]. exists (cst Cnil), []. split; [reflexivity|]. split; [reflexivity|]. split; [apply EO|]. cbn. exists (sub_vals e l). split; [exact MS|]. split; [apply sub_vals_len|reflexivity].
Qed.

(** ** Terms *)
Lemma pkeeps : forall X Vs s s' c m q m' q' x, shape kd N0 X Vs s s' c -> pexec c m q m' q' -> (forall a, x = A a -> ~ In a (aw c)) -> (forall y, x = T y -> N0 <= y < nxt s /\ ~ In y X) -> m' x = m x.
Proof.
  intros X Vs s s' c m q m' q' x Sh H HA HT. apply (pexec_other _ _ _ _ _ _ _ _ _ H); [apply (sh_lost _ _ _ _ _ _ _ Sh)|]. intros Q. destruct x as [a|y].
  - apply (HA a eq_refl). apply aw_in. exact Q.
  - destruct (HT y eq_refl) as (Q1 & Q2). apply tw_in in Q. destruct (sh_tw _ _ _ _ _ _ _ Sh y Q) as [Q3|[(Q3 & _)|Q3]]; [contradiction|lia|lia].
Qed.
(** values for the registers of the subterms *)
Definition aux_env (ax : list (nat * tm)) (e : nat -> V) (n : nat) : V :=
  match find (fun p => fst p =? n) ax with Some p => eval e (snd p) | None => e n end.
Lemma aux_env_in : forall ax e x t, NoDup (map fst ax) -> In (x, t) ax -> aux_env ax e x = eval e t.
Proof.
  intros ax e x t. unfold aux_env. induction ax as [|(y, u) ax IH]; intros N H; [contradiction|]. cbn [find fst]. cbn in N. inversion N; subst. destruct (Nat.eqb_spec y x) as [->|D].
  - destruct H as [H|H]; [injection H as ->; reflexivity|]. exfalso. apply H2. apply (in_map fst) in H. exact H.
  - destruct H as [H|H]; [injection H; intros; contradiction|]. apply IH; auto.
Qed.
Lemma aux_env_other : forall ax e n, ~ In n (map fst ax) -> aux_env ax e n = e n.
Proof.
  intros ax e n H. unfold aux_env. destruct (find (fun p => fst p =? n) ax) as [p|] eqn:E; [|reflexivity]. apply find_some in E. destruct E as (E1 & E2). apply Nat.eqb_eq in E2. exfalso. apply H. rewrite <- E2. apply in_map. exact E1.
Qed.
Definition ucomplete (t : tm) (x : reg) (s : st) (c : list inst) (s' : st) : Prop :=
  wfs N0 s -> lvl N0 (vars t) -> tgt_ok N0 s x -> KV s -> forall L : nat -> Prop, (forall n, In n (vars t) -> kd n = KX -> L n) ->
  forall (P : nat -> Prop) d q e, (forall y, P y -> N0 <= y < nxt s) -> ms q = [] -> envok q -> pagree L P s e d q -> d x = Some (eval e t) ->
  exists d' q', pexec c d q d' q' /\ done L P s' e q d' q'.
Lemma gen_lst_unif_complete : forall g l, (forall p, In p l -> forall s c s', g (snd p) (fst p) s = Some (c, s') -> (exists k, gen_unif fl kd k (snd p) (fst p) s = Some (c, s')) /\ ucomplete (snd p) (fst p) s c s') ->
  forall s c s', gen_lst g l s = Some (c, s') -> wfs N0 s -> lvl N0 (lvars (map snd l)) -> (forall p, In p l -> tgt_ok N0 s (fst p)) -> KV s ->
  forall L : nat -> Prop, (forall n, In n (lvars (map snd l)) -> kd n = KX -> L n) ->
  forall (P : nat -> Prop) d q e, (forall y, P y -> N0 <= y < nxt s) -> ms q = [] -> envok q -> pagree L P s e d q -> (forall x t, In (x, t) l -> d x = Some (eval e t)) ->
  exists d' q', pexec c d q d' q' /\ done L P s' e q d' q'.
Proof.
  intros g. induction l as [|(x, t) l IH]; intros HG s c s' E W HN HX HK L HL P d q e HP MS EO AG DX.
  - cbn in E. injection E as <- <-. exists d, q. split; [cbn; auto|]. split; [exact MS|]. auto.
  - cbn [gen_lst] in E. destruct (g t x s) as [(c1, s1)|] eqn:E1; [|discriminate E]. destruct (gen_lst g l s1) as [(c2, s2)|] eqn:E2; [|discriminate E]. injection E as <- <-.
    cbn [map snd lvars flat_map] in *. change (flat_map vars (map snd l)) with (lvars (map snd l)) in *.
    destruct (HG (x, t) (or_introl eq_refl) s c1 s1 E1) as ((k & Ek) & US). cbn [fst snd] in *.
    assert (HN1 : lvl N0 (vars t)) by (intros n Hn; apply HN; apply in_app_iff; auto). assert (HN2 : lvl N0 (lvars (map snd l))) by (intros n Hn; apply HN; apply in_app_iff; auto).
    pose proof (HX (x, t) (or_introl eq_refl)) as HXx. cbn in HXx.
    pose proof (gen_unif_shape fl kd N0 _ _ _ _ _ _ Ek W HN1 HXx) as S1. pose proof (sh_nxt _ _ _ _ _ _ _ S1) as L1.
    assert (W1 : wfs N0 s1) by (apply (shape_wfs _ _ _ _ _ _ _ S1 W); intros ? []).
    destruct (US W HN1 HXx HK L ltac:(intros n Hn; apply HL; apply in_app_iff; auto) P d q e HP MS EO AG (DX x t (or_introl eq_refl))) as (d1 & q1 & H1 & A1 & A2 & A3 & A4).
    destruct (IH ltac:(intros p Hp; apply HG; right; exact Hp) s1 c2 s2 E2 W1 HN2) with (L := L) (P := P) (d := d1) (q := q1) (e := e) as (d' & q' & H2 & R1 & R2 & R3); auto.
    { intros p Hp u Hu. specialize (HX p (or_intror Hp) u Hu). lia. }
    { apply (KV_mono _ _ _ _ _ _ _ S1 HK); [apply W|intros ? []]. }
    { intros n Hn. apply HL. apply in_app_iff. auto. }
    { intros y Hy. specialize (HP y Hy). lia. }
    { intros y u Hp. rewrite <- (DX y u (or_intror Hp)). apply (pkeeps _ _ _ _ _ _ _ _ _ _ S1 H1).
      - intros a ->. rewrite (gen_unif_aw fl kd _ _ _ _ _ _ Ek). auto.
      - intros z ->. split; [apply (HX (T z, u) (or_intror Hp) z eq_refl)|intros []]. }
    exists d', q'. split; [apply pexec_app; eauto|]. split; [exact R1|]. split; [congruence|exact R3].
Qed.
Lemma gen_unif_complete : forall k t x s c s', gen_unif fl kd k t x s = Some (c, s') -> ucomplete t x s c s'.
Proof.
  assert (HV : forall n x s c s', unif_var kd n x s = (c, s') -> ucomplete (Tv n) x s c s').
  { intros n x s c s' E W HN HX HK L HL P d q e HP MS EO AG DX. apply (unif_var_complete L P n x s c s' d q e E); auto.
    - apply HN. left. reflexivity. - intros y Hy. apply (HP y Hy). - apply HL. left. reflexivity. }
  assert (HC : forall b x s, ucomplete (Tc b) x s [get_arg (i_get_const b) x] s).
  { intros b x s W HN HX HK L HL P d q e HP MS EO AG DX. exists d, q. split; [|split; [exact MS|auto]]. apply pexec_one. exists (cst b), [cst b]. split; [cbn; rewrite DX; reflexivity|]. split; [reflexivity|]. split; [apply EO|]. cbn. auto. }
  induction k as [|k IH]; intros t x s c s' E; (destruct t as [n|b|f l]; [injection E as E; apply HV; exact E|injection E as <- <-; apply HC|]); [discriminate E|].
  cbn [gen_unif] in E. intros W HN HX HK L HL P d q e HP MS EO AG DX. rewrite vars_Tf in *.
  destruct (flat fl true (Tf f l) s) as ((fa, ax), s1) eqn:EF. apply flat_Flat in EF. destruct (gen_sub kd [] fa s1) as (c1, s2) eqn:ES.
  destruct (gen_lst (gen_unif fl kd k) (auxs ax) s2) as [(c2, s3)|] eqn:EL; [|discriminate E]. injection E as <- <-.
  destruct (Flat_shape _ _ _ _ _ _ EF) as (F1 & F2 & F3 & F4 & F5 & F6 & F7). destruct (Flat_inf N0 _ _ _ _ _ _ EF W) as (W1 & F8 & F9).
  assert (HP' : forall n, In n (fvars fa ++ lvars (map snd ax)) <-> In n (lvars l)) by (intros n; split; apply Permutation_in; [exact F6|symmetry; exact F6]).
  assert (HXX : forall y, In y (map fst ax) -> nxt s <= y < nxt s1) by (intros y Hy; rewrite F4 in Hy; apply in_seq in Hy; lia).
  pose proof W as (W2 & W3).
  assert (HN1 : lvl N0 (fvars fa)) by (intros n Hn; apply HN; apply HP'; apply in_app_iff; auto). assert (HN2 : lvl N0 (lvars (map snd ax))) by (intros n Hn; apply HN; apply HP'; apply in_app_iff; auto).
  assert (AXo : forall y, In y (fx fa) -> aux_ok N0 true s1 y) by (intros y Hy; rewrite F1 in Hy; split; [specialize (HXX y Hy); lia|apply F9; exact Hy]).
  assert (NDa : NoDup (map fst ax)) by (rewrite F4; apply seq_NoDup). assert (NDx : NoDup (fx fa)) by (rewrite F1; exact NDa).
  assert (S1 : shape kd N0 (wr_aux true fa) ([] ++ fvars fa) s1 s2 c1) by (apply (gen_sub_shape kd N0 true fa [] _ _ _ ES W1); auto; intros n []).
  cbn [app wr_aux] in S1. rewrite F1 in S1. assert (W4 : wfs N0 s2) by (apply (shape_wfs _ _ _ _ _ _ _ S1 W1); intros y Hy; apply (HXX y Hy)).
  pose proof (sh_nxt _ _ _ _ _ _ _ S1) as L12.
  assert (K1 : KV s1). { intros n K EK. destruct (le_lt_dec N0 n) as [Q|Q]; [exact Q|]. apply HK; [|exact EK]. unfold known in *. rewrite F8 in K by lia. exact K. }
  assert (K2 : KV s2) by (apply (KV_mono _ _ _ _ _ _ _ S1 K1); [apply W1|intros y Hy; specialize (HXX y Hy); lia]).
  assert (SO : psub_ok true L [] fa s1 s2 c1) by (apply (gen_sub_complete true fa L [] _ _ _ ES); auto; intros n Hn; apply HL; apply HP'; apply in_app_iff; auto).
  pose (e1 := aux_env ax e). assert (EV : forall n, n < N0 -> e1 n = e n) by (intros n Hn; apply aux_env_other; intros Q; specialize (HXX n Q); lia).
  assert (ET : forall t, lvl N0 (vars t) -> eval e1 t = eval e t) by (intros t Ht; apply eval_ext; intros n Hn; apply EV; apply Ht; exact Hn).
  assert (EA : forall y u, In (y, u) ax -> e1 y = eval e1 u).
  { intros y u Hy. rewrite ET; [apply aux_env_in; auto|]. intros n Hn. apply HN2. apply (lvars_in _ u); [apply (in_map snd) in Hy; exact Hy|exact Hn]. }
  assert (EP : forall n, n < N0 \/ P n -> e1 n = e n) by (intros n [Hn|Hn]; [auto|]; apply aux_env_other; intros Q; specialize (HXX n Q); specialize (HP n Hn); lia).
  destruct (SO P d (set_s V q (sub_vals e1 fa)) e1) as (d1 & q1 & H1 & A1 & A2 & A3 & A4); auto.
  { intros y Hy. apply (HP y Hy). }
  { apply pagree_set_s. apply (pagree_e _ _ _ e); [|exact EP]. destruct AG as [G1 G2 G3]. constructor; auto.
    - intros n Hn EK K HLn. apply G1; auto. unfold known in *. rewrite F8 in K by lia. exact K.
    - intros n y Hn EK K. apply G2; auto. unfold known in *. rewrite F8 in K by lia. exact K. }
  destruct (gen_lst_unif_complete (gen_unif fl kd k) (auxs ax)) with (s := s2) (c := c2) (s' := s3) (L := L) (P := fun y => P y \/ In y (fx fa)) (d := d1) (q := q1) (e := e1) as (d' & q' & H2 & R1 & R2 & R3 & R4); auto; try (rewrite auxs_snd; assumption).
  { intros p _ sa ca sb Ea. split; [eauto|]. apply (IH _ _ _ _ _ Ea). }
  { intros p Hp. unfold auxs in Hp. apply in_map_iff in Hp. destruct Hp as ((y, u) & <- & Hp). intros z Hz. injection Hz as <-. apply (in_map fst) in Hp. specialize (HXX _ Hp). cbn in *. lia. }
  { rewrite auxs_snd. intros n Hn. apply HL. apply HP'. apply in_app_iff. auto. }
  { intros y [Hy|Hy]; [specialize (HP y Hy); lia|rewrite F1 in Hy; specialize (HXX y Hy); lia]. }
  { intros y u Hy. unfold auxs in Hy. apply in_map_iff in Hy. destruct Hy as ((z, u1) & Hz & Hy). injection Hz as <- <-. cbn [fst snd]. rewrite (pag_p _ _ _ _ _ _ A4 z); [f_equal; apply EA; exact Hy|]. right. rewrite F1. apply (in_map fst) in Hy. exact Hy. }
  exists d', q'. split; [|split; [exact R1|split; [rewrite R2, A2; reflexivity|split; [exact R3|]]]].
  - apply (pexec_cons _ _ _ _ d (set_s V q (sub_vals e1 fa))); [|apply pexec_app; eauto]. exists (cst Cnil), [eval e (Tf f l)]. split; [cbn [map]; rewrite DX; reflexivity|]. split; [reflexivity|]. split; [apply EO|]. cbn. split; [exact MS|].
    exists (sub_vals e1 fa). split; [rewrite sub_vals_len; exact F3|]. split; [|reflexivity]. f_equal. rewrite (Flat_vals _ _ _ _ _ _ _ _ _ EF e1 EA). apply map_ext_in. intros t Ht. symmetry. apply ET. intros n Hn. apply HN. apply (lvars_in l t n Ht Hn).
  - apply (pagree_e _ _ _ e1); [|intros n Hn; symmetry; apply EP; exact Hn]. apply (pagree_L _ _ _ _ _ _ _ _ R4); auto.
Qed.

Definition lcomplete (lp : bool) (t : tm) (x : reg) (s : st) (c : list inst) (s' : st) : Prop :=
  wfs N0 s -> lvl N0 (vars t) -> tgt_ok N0 s x -> lp_ok kd lp s (vars t) -> KV s -> forall L : nat -> Prop, (forall n, In n (vars t) -> kd n = KX -> L n) ->
  forall (P : nat -> Prop) d q e, (forall y, P y -> N0 <= y < nxt s) -> (forall y, x = T y -> ~ P y) -> ms q = [] -> envok q -> pagree L P s e d q ->
  exists d' q', pexec c d q d' q' /\ d' x = Some (eval e t) /\ done L P s' e q d' q'.
Lemma gen_lst_load_complete : forall lp g l, (forall p, In p l -> forall s c s', g (snd p) (fst p) s = Some (c, s') -> (exists k, gen_load fl kd lp k (snd p) (fst p) s = Some (c, s')) /\ lcomplete lp (snd p) (fst p) s c s') ->
  forall s c s', gen_lst g l s = Some (c, s') -> wfs N0 s -> lvl N0 (lvars (map snd l)) -> (forall p, In p l -> tgt_ok N0 s (fst p)) -> NoDup (map fst l) -> lp_ok kd lp s (lvars (map snd l)) -> KV s ->
  shape kd N0 (flat_map (fun p => tnum (fst p)) l) (lvars (map snd l)) s s' c /\ aw c = flat_map (fun p => anum (fst p)) l /\
  forall L : nat -> Prop, (forall n, In n (lvars (map snd l)) -> kd n = KX -> L n) ->
  forall (P : nat -> Prop) d q e, (forall y, P y -> N0 <= y < nxt s) -> (forall y, In (T y) (map fst l) -> ~ P y) -> ms q = [] -> envok q -> pagree L P s e d q ->
  exists d' q', pexec c d q d' q' /\ (forall x t, In (x, t) l -> d' x = Some (eval e t)) /\ done L P s' e q d' q'.
Proof.
  intros lp g. induction l as [|(x, t) l IH]; intros HG s c s' E W HN HX ND HLP HK.
  - cbn in E. injection E as <- <-. split; [apply shape_nil|]. split; [reflexivity|]. intros L HL P d q e HP HXP MS EO AG. exists d, q. split; [cbn; auto|]. split; [contradiction|]. split; [exact MS|auto].
  - cbn [gen_lst] in E. destruct (g t x s) as [(c1, s1)|] eqn:E1; [|discriminate E]. destruct (gen_lst g l s1) as [(c2, s2)|] eqn:E2; [|discriminate E]. injection E as <- <-.
    cbn [map fst snd lvars flat_map] in *. change (flat_map vars (map snd l)) with (lvars (map snd l)) in *. inversion ND as [|? ? ND1 ND2]; subst.
    destruct (HG (x, t) (or_introl eq_refl) s c1 s1 E1) as ((k & Ek) & US). cbn [fst snd] in *.
    assert (HN1 : lvl N0 (vars t)) by (intros n Hn; apply HN; apply in_app_iff; auto). assert (HN2 : lvl N0 (lvars (map snd l))) by (intros n Hn; apply HN; apply in_app_iff; auto).
    assert (HLP1 : lp_ok kd lp s (vars t)) by (intros Q n y Hn; apply (HLP Q n y); apply in_app_iff; auto).
    pose proof (HX (x, t) (or_introl eq_refl)) as HXx. cbn in HXx.
    pose proof (gen_load_shape fl kd N0 _ _ _ _ _ _ _ Ek W HN1 HXx HLP1) as S1. pose proof (sh_nxt _ _ _ _ _ _ _ S1) as L1.
    assert (W1 : wfs N0 s1) by (apply (shape_wfs _ _ _ _ _ _ _ S1 W); intros y Hy; apply tnum_in in Hy; apply (HXx y Hy)).
    assert (HLP2 : lp_ok kd lp s1 (lvars (map snd l))) by (apply (lp_ok_mono _ _ _ _ _ _ _ _ _ S1); intros Q n y Hn; apply (HLP Q n y); apply in_app_iff; auto).
    assert (HK1 : KV s1) by (apply (KV_mono _ _ _ _ _ _ _ S1 HK); [apply W|intros y Hy; apply tnum_in in Hy; apply (HXx y Hy)]).
    assert (HX1 : forall p, In p l -> tgt_ok N0 s1 (fst p)) by (intros p Hp u Hu; specialize (HX p (or_intror Hp) u Hu); lia).
    destruct (IH ltac:(intros p Hp; apply HG; right; exact Hp) s1 c2 s2 E2 W1 HN2 HX1 ND2 HLP2 HK1) as (S2 & AW2 & IHS). pose proof (sh_nxt _ _ _ _ _ _ _ S2) as L2.
    pose proof (gen_load_aw fl kd N0 _ _ _ _ _ _ _ Ek W HN1 HXx HLP1) as AW1.
    assert (HD : forall y, In y (tnum x) -> In y (flat_map (fun p => tnum (fst p)) l) -> False) by (intros y Q1 Q2; apply tnum_in in Q1; apply tgts_in in Q2; subst x; contradiction).
    split; [|split].
    + apply (shape_app _ _ _ _ _ _ _ _ _ _ _ S1 S2 W); [|exact HD]. intros y Hy. rewrite in_app_iff in Hy. destruct Hy as [Hy|Hy]; [apply tnum_in in Hy; apply (HXx y Hy)|]. apply in_flat_map in Hy. destruct Hy as (p & Hp & Hy). apply tnum_in in Hy. apply (HX p (or_intror Hp) y Hy).
    + rewrite aw_app, AW1, AW2. reflexivity.
    + intros L HL P d q e HP HXP MS EO AG.
      destruct (US W HN1 HXx HLP1 HK L ltac:(intros n Hn; apply HL; apply in_app_iff; auto) P d q e HP ltac:(intros y Q; apply HXP; left; exact Q) MS EO AG) as (d1 & q1 & H1 & A0 & A1 & A2 & A3 & A4).
      destruct (IHS L ltac:(intros n Hn; apply HL; apply in_app_iff; auto) P d1 q1 e) as (d' & q' & H2 & R0 & R1 & R2 & R3); auto.
      { intros y Hy. specialize (HP y Hy). lia. } { intros y Hy. apply HXP. right. exact Hy. }
      exists d', q'. split; [apply pexec_app; eauto|]. split; [|split; [exact R1|split; [congruence|exact R3]]].
      intros y u [Q|Hp]; [|auto]. injection Q as <- <-. rewrite <- A0. apply (pkeeps _ _ _ _ _ _ _ _ _ _ S2 H2).
      * intros a -> Q. rewrite AW2 in Q. apply in_flat_map in Q. destruct Q as (p & Hp & Q). apply anum_in in Q. apply ND1. rewrite <- Q. apply in_map. exact Hp.
      * intros z ->. split; [specialize (HXx z eq_refl); lia|]. intros Q. apply (HD z); [left; reflexivity|exact Q].
Qed.
Lemma gen_load_complete : forall lp k t x s c s', gen_load fl kd lp k t x s = Some (c, s') -> lcomplete lp t x s c s'.
Proof.
  intros lp.
  assert (HV : forall n x s c s', load_var kd lp n x s = (c, s') -> lcomplete lp (Tv n) x s c s').
  { intros n x s c s' E W HN HX HLP HK L HL P d q e HP HXP MS EO AG. apply (load_var_complete L P lp n x s c s' d q e E); auto.
    - apply HN. left. reflexivity. - intros y Hy. apply (HP y Hy). - apply HL. left. reflexivity. - intros y Hy. split; [apply (HX y Hy)|auto]. }
  assert (HC : forall b x s, lcomplete lp (Tc b) x s [put_arg (i_put_const b) x] s).
  { intros b x s W HN HX HLP HK L HL P d q e HP HXP MS EO AG. exists (write _ d x (Some (cst b))), q. split; [|split; [rewrite write_same; reflexivity|split; [exact MS|split; [reflexivity|split; [exact EO|]]]]].
    - apply pexec_one. exists (cst b), []. split; [reflexivity|]. split; [reflexivity|]. split; [apply EO|]. cbn. auto.
    - apply pagree_write; [exact AG|]. intros y Hy. split; [apply (HX y Hy)|auto]. }
  induction k as [|k IH]; intros t x s c s' E; (destruct t as [n|b|f l]; [injection E as E; apply HV; exact E|injection E as <- <-; apply HC|]); [discriminate E|].
  rewrite gen_load_Tf in E. intros W HN HX HLP HK L HL P d q e HP HXP MS EO AG. pose proof W as (W2 & W3). rewrite vars_Tf in *. destruct (as_meta f l) as [(md, g)|] eqn:EM.
  - apply as_meta_some in EM. destruct EM as (-> & ->). destruct (new_reg s) as (x1, s1) eqn:EN. destruct (gen_load fl kd lp k g (T x1) s1) as [(c1, s2)|] eqn:E1; [|discriminate E]. injection E as <- <-.
    assert (W1 : wfs N0 s1) by (pose proof (new_reg_wfs N0 s W) as Q; rewrite EN in Q; exact Q). injection EN as <- <-. cbn [nxt] in *.
    assert (VG : lvars [Tc (Catm md); g] = vars g) by (unfold lvars; cbn; rewrite app_nil_r; reflexivity). rewrite VG in *.
    assert (TG : tgt_ok N0 (St (S (nxt s)) (inf s)) (T (nxt s))) by (intros y Hy; injection Hy as <-; cbn; lia).
    destruct (IH _ _ _ _ _ E1 W1 HN TG HLP HK L HL P d q e) as (d1 & q1 & H1 & A0 & A1 & A2 & A3 & A4); auto.
    { intros y Hy. specialize (HP y Hy). cbn. lia. } { intros y Hy Q. injection Hy as <-. specialize (HP _ Q). lia. } { destruct AG; constructor; auto. }
    exists (write _ d1 x (Some (fn mt [cst (Catm md); eval e g]))), q1. split; [|split; [rewrite write_same; reflexivity|split; [exact A1|split; [exact A2|split; [exact A3|]]]]].
    + apply pexec_app. exists d1, q1. split; [exact H1|]. apply pexec_one. exists (fn mt [cst (Catm md); eval e g]), [eval e g]. split; [cbn; rewrite A0; reflexivity|]. split; [reflexivity|]. split; [apply A3|]. cbn. auto.
    + apply pagree_write; [exact A4|]. intros y Hy. split; [apply (HX y Hy)|auto].
  - destruct (flat fl false (Tf f l) s) as ((fa, ax), s1) eqn:EF. apply flat_Flat in EF.
    destruct (gen_lst (gen_load fl kd lp k) (auxs ax) s1) as [(c1, s2)|] eqn:EL; [|discriminate E]. destruct (gen_sub kd [] fa s2) as (c2, s3) eqn:ES. injection E as <- <-.
    destruct (Flat_shape _ _ _ _ _ _ EF) as (F1 & F2 & F3 & F4 & F5 & F6 & F7). destruct (Flat_inf N0 _ _ _ _ _ _ EF W) as (W1 & F8 & F9).
    assert (HP' : forall n, In n (fvars fa ++ lvars (map snd ax)) <-> In n (lvars l)) by (intros n; split; apply Permutation_in; [exact F6|symmetry; exact F6]).
    assert (HXX : forall y, In y (map fst ax) -> nxt s <= y < nxt s1) by (intros y Hy; rewrite F4 in Hy; apply in_seq in Hy; lia).
    assert (HN1 : lvl N0 (fvars fa)) by (intros n Hn; apply HN; apply HP'; apply in_app_iff; auto). assert (HN2 : lvl N0 (lvars (map snd ax))) by (intros n Hn; apply HN; apply HP'; apply in_app_iff; auto).
    assert (K1 : KV s1). { intros n K EK. destruct (le_lt_dec N0 n) as [Q|Q]; [exact Q|]. apply HK; [|exact EK]. unfold known in *. rewrite F8 in K by lia. exact K. }
    assert (TGX : flat_map (fun p : reg * tm => tnum (fst p)) (auxs ax) = map fst ax) by (clear; induction ax as [|(y, u) ax IHa]; cbn; [reflexivity|f_equal; exact IHa]).
    destruct (gen_lst_load_complete lp (gen_load fl kd lp k) (auxs ax)) with (s := s1) (c := c1) (s' := s2) as (S1 & AW1 & LS); auto; try (rewrite auxs_snd; assumption).
    { intros p _ sa ca sb Ea. split; [eauto|]. apply (IH _ _ _ _ _ Ea). }
    { intros p Hp. unfold auxs in Hp. apply in_map_iff in Hp. destruct Hp as ((y, u) & <- & Hp). intros z Hz. injection Hz as <-. apply (in_map fst) in Hp. specialize (HXX _ Hp). cbn in *. lia. }
    { rewrite auxs_fst, F4. apply FinFun.Injective_map_NoDup; [intros a b Q; injection Q; auto|apply seq_NoDup]. }
    { rewrite auxs_snd. intros Q n y Hn EK. specialize (HN2 n Hn) as Q2. unfold known. rewrite F8 by lia. apply (HLP Q n y); [|exact EK]. apply HP'. apply in_app_iff. auto. }
    rewrite auxs_snd, TGX in *. assert (W4 : wfs N0 s2) by (apply (shape_wfs _ _ _ _ _ _ _ S1 W1); intros y Hy; apply (HXX y Hy)).
    pose proof (sh_nxt _ _ _ _ _ _ _ S1) as L12.
    assert (AXo : forall y, In y (fx fa) -> aux_ok N0 false s2 y).
    { intros y Hy. rewrite F1 in Hy. split; [specialize (HXX y Hy); lia|]. rewrite (sh_mono _ _ _ _ _ _ _ S1); [apply (F9 y Hy)|unfold known; rewrite (F9 y Hy); discriminate]. }
    assert (NDa : NoDup (map fst ax)) by (rewrite F4; apply seq_NoDup). assert (NDx : NoDup (fx fa)) by (rewrite F1; exact NDa).
    assert (S2 : shape kd N0 (wr_aux false fa) ([] ++ fvars fa) s2 s3 c2) by (apply (gen_sub_shape kd N0 false fa [] _ _ _ ES W4); auto; intros n []).
    cbn [app wr_aux] in S2. pose proof (sh_nxt _ _ _ _ _ _ _ S2) as L23.
    assert (SO : psub_ok false L [] fa s2 s3 c2) by (apply (gen_sub_complete false fa L [] _ _ _ ES); auto; intros n Hn; apply HL; apply HP'; apply in_app_iff; auto).
    destruct (LS L ltac:(intros n Hn; apply HL; apply HP'; apply in_app_iff; auto) P d q e) as (d1 & q1 & H1 & A0 & A1 & A2 & A3 & A4); auto.
    { intros y Hy. specialize (HP y Hy). lia. }
    { intros y Hy Q. rewrite auxs_fst in Hy. apply in_map_iff in Hy. destruct Hy as (z & Hz & Hy). injection Hz as ->. specialize (HXX y Hy). specialize (HP y Q). lia. }
    { destruct AG as [G1 G2 G3]. constructor; auto.
      - intros n Hn EK K HLn. apply G1; auto. unfold known in *. rewrite F8 in K by lia. exact K.
      - intros n y Hn EK K. apply G2; auto. unfold known in *. rewrite F8 in K by lia. exact K. }
    pose (e1 := aux_env ax e). assert (EV : forall n, n < N0 -> e1 n = e n) by (intros n Hn; apply aux_env_other; intros Q; specialize (HXX n Q); lia).
    assert (ET : forall t, lvl N0 (vars t) -> eval e1 t = eval e t) by (intros t Ht; apply eval_ext; intros n Hn; apply EV; apply Ht; exact Hn).
    assert (EA : forall y u, In (y, u) ax -> e1 y = eval e u) by (intros y u Hy; apply aux_env_in; auto).
    assert (EA' : forall y u, In (y, u) ax -> e1 y = eval e1 u).
    { intros y u Hy. rewrite ET; [apply EA; auto|]. intros n Hn. apply HN2. apply (lvars_in _ u); [apply (in_map snd) in Hy; exact Hy|exact Hn]. }
    assert (EP : forall n, n < N0 \/ P n -> e1 n = e n) by (intros n [Hn|Hn]; [auto|]; apply aux_env_other; intros Q; specialize (HXX n Q); specialize (HP n Hn); lia).
    pose (v := eval e (Tf f l)).
    assert (AG2 : pagree L (fun y => P y \/ In y (map fst ax)) s2 e1 (write _ d1 x (Some v)) (set_s V q1 (sub_vals e1 fa))).
    { apply pagree_set_s. apply pagree_write.
      - apply (pagree_e _ _ _ e) with (e' := e1) in A4; [|exact EP]. destruct A4 as [G1 G2 G3]. constructor; auto.
        intros y [Hy|Hy]; [auto|]. apply in_map_iff in Hy. destruct Hy as ((z, u) & Hz & Hy). cbn in Hz. subst z. rewrite (A0 (T y) u) by (unfold auxs; apply in_map_iff; exists (y, u); auto). f_equal. symmetry. apply EA. exact Hy.
      - intros y Hy. pose proof (HX y Hy) as Q. split; [lia|]. intros [Q1|Q1]; [apply (HXP y Hy Q1)|]. specialize (HXX y Q1). lia. }
    destruct (SO (fun y => P y \/ In y (map fst ax)) (write _ d1 x (Some v)) (set_s V q1 (sub_vals e1 fa)) e1) as (d' & q' & H2 & R1 & R2 & R3 & R4); auto.
    { intros y [Hy|Hy]; [apply (HP y Hy)|specialize (HXX y Hy); lia]. }
    { intros y Hy. right. rewrite <- F1. exact Hy. }
    exists d', q'. split; [|split; [|split; [exact R1|split; [rewrite R2; exact A2|split; [exact R3|]]]]].
    + apply pexec_app. exists d1, q1. split; [exact H1|]. apply (pexec_cons _ _ _ _ (write _ d1 x (Some v)) (set_s V q1 (sub_vals e1 fa))); [|exact H2].
      exists v, []. split; [reflexivity|]. split; [reflexivity|]. split; [apply A3|]. split; [exact A1|]. exists (sub_vals e1 fa). split; [rewrite sub_vals_len; exact F3|]. split; [|reflexivity].
      unfold v. cbn [Clause_Spec.eval]. f_equal. rewrite (Flat_vals _ _ _ _ _ _ _ _ _ EF e1 EA'). apply map_ext_in. intros t Ht. symmetry. apply ET. intros n Hn. apply HN. apply (lvars_in l t n Ht Hn).
    + rewrite (pkeeps _ _ _ _ _ _ _ _ _ x S2 H2); [apply write_same| |].
      * intros a Ha. pose proof (gen_sub_aw kd fa [] s2) as Q. rewrite ES in Q. cbn [fst] in Q. rewrite Q. auto.
      * intros y Hy. split; [specialize (HX y Hy); lia|intros []].
    + apply (pagree_e _ _ _ e1); [|intros n Hn; symmetry; apply EP; exact Hn]. apply (pagree_L _ _ _ _ _ _ _ _ R4); auto.
Qed.
End Complete.
