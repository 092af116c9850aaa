(** Proofs for C59: the assignment of the temporaries. *)
Require Import List Bool Arith Lia Permutation.
Require Import Verif.RegAlloc_Model Verif.RegAlloc_Spec Verif.RegAlloc_Graph.
Import ListNotations.

Definition rb (t : nat) (x v : reg) : reg := match v with T m => if m =? t then x else T m | A n => A n end.
Lemma val_bind : forall s t x y, val (bind s t x) y = rb t x (val s y).
Proof. intros s t x [n|n]; cbn; [reflexivity|]. unfold bind. destruct (s n); reflexivity. Qed.
Lemma map_bind : forall s t x l, map (val (bind s t x)) l = map (rb t x) (map (val s) l).
Proof. intros. rewrite map_map. apply map_ext. intros y. apply val_bind. Qed.
Lemma s_bind : forall s t x u, bind s t x u = rb t x (s u).
Proof. reflexivity. Qed.
Lemma same_eq : forall s x y, same s x y = true <-> val s x = val s y.
Proof. intros s x y. unfold same. destruct (reg_eqb_spec (val s x) (val s y)); split; congruence. Qed.
Lemma selt_In : forall s l x, set_elt (same s) l x = true <-> In (val s x) (map (val s) l).
Proof.
  intros s. induction l as [|y l IH]; intros x; cbn; [split; [discriminate|intros []]|]. rewrite orb_true_iff, IH, same_eq. split; (intros [E|E]; [left; congruence|auto]).
Qed.
Lemma sunion_In : forall s l1 l2 v, In v (map (val s) (set_union (same s) l1 l2)) <-> In v (map (val s) l1) \/ In v (map (val s) l2).
Proof.
  intros s. induction l1 as [|x l1 IH]; intros l2 v; cbn; [tauto|]. destruct (set_elt (same s) l2 x) eqn:E.
  - apply selt_In in E. rewrite IH. split; [tauto|]. intros [[<-|H]|H]; auto.
  - cbn. rewrite IH. tauto.
Qed.
Lemma sdiff_In : forall s l l1 x, In x (set_diff (same s) l l1) -> In x l /\ ~ In (val s x) (map (val s) l1).
Proof.
  intros s. induction l as [|y l IH]; intros l1 x H; cbn in H; [destruct H|]. destruct (set_elt (same s) l1 y) eqn:E.
  - destruct (IH l1 x H). split; [right; assumption|assumption].
  - destruct H as [<-|H]; [|destruct (IH l1 x H); split; [right; assumption|assumption]]. split; [left; reflexivity|]. rewrite <- selt_In, E. discriminate.
Qed.

Section Assign.
Variable K0 : nat -> Prop.
Variables I0 W0 : nat -> reg -> Prop.
Hypothesis I0_sym : forall t u, I0 t (T u) -> I0 u (T t).
Hypothesis I0_key : forall t y, I0 t y -> K0 t.
Hypothesis W0_sym : forall t u, W0 t (T u) -> W0 u (T t).
Hypothesis W0_key : forall t y, W0 t y -> K0 t.

(** the temporaries not assigned yet, with registers they cannot have *)
Record ainv (s : binding) (R : list (nat * list reg)) : Prop := Ainv {
  a_root : forall t im, In (t, im) R -> s t = T t;
  a_cover : forall u, K0 u -> (exists n, s u = A n) \/ exists t im, In (t, im) R /\ s u = T t;
  a_nd : NoDup (map fst R);
  a_imp : forall t im, In (t, im) R -> forall u y, s u = T t -> I0 u y -> In (val s y) (map (val s) im);
  a_ok : forall u y, I0 u y -> s u <> val s y }.
Definition conv (s : binding) (R : list (nat * list reg)) : Prop :=
  forall t im, In (t, im) R -> forall v, In v (map (val s) im) -> exists u y, s u = T t /\ I0 u y /\ val s y = v.

Lemma ainv_perm : forall s R R', Permutation R R' -> ainv s R -> ainv s R'.
Proof.
  intros s R R' P [A1 A2 A3 A4 A5]. pose proof (Permutation_sym P) as P'. constructor.
  - intros t im H. apply (A1 t im). apply (Permutation_in _ P'). exact H.
  - intros u H. destruct (A2 u H) as [Q|(t & im & Q1 & Q2)]; [auto|]. right. exists t, im. split; [apply (Permutation_in _ P); exact Q1|exact Q2].
  - apply (Permutation_NoDup (Permutation_map fst P) A3).
  - intros t im H. apply (A4 t im). apply (Permutation_in _ P'). exact H.
  - exact A5.
Qed.
Lemma conv_perm : forall s R R', Permutation R R' -> conv s R -> conv s R'.
Proof. intros s R R' P C t im H. apply (C t im). apply (Permutation_in _ (Permutation_sym P)). exact H. Qed.

Lemma rb_T : forall t x v d, d <> t -> (forall m, x = T m -> m <> d) -> (rb t x v = T d <-> v = T d).
Proof.
  intros t x [n|n] d N NX; cbn; [split; congruence|]. destruct (Nat.eqb_spec n t) as [->|M]; split; intros E.
  - exfalso. apply (NX d E). reflexivity.
  - injection E as ->. congruence.
  - congruence.
  - congruence.
Qed.
Lemma root_other : forall s t im R t' im', ainv s ((t, im) :: R) -> In (t', im') R -> t' <> t.
Proof.
  intros s t im R t' im' IV H E. pose proof (a_nd _ _ IV) as ND. cbn in ND. inversion ND; subst. apply H2. apply in_map_iff. exists (t, im'). auto.
Qed.

Lemma bind_A : forall s t im R n, ainv s ((t, im) :: R) -> ~ In (A n) (map (val s) im) -> ainv (bind s t (A n)) R.
Proof.
  intros s t im R n IV N. destruct IV as [A1 A2 A3 A4 A5].
  assert (RO' : forall t' im', In (t', im') R -> t' <> t) by (intros t' im' H; apply (root_other s t im R t' im'); [constructor; assumption|exact H]).
  constructor.
  - intros t' im' H. rewrite s_bind, (A1 t' im') by (right; exact H). cbn. destruct (Nat.eqb_spec t' t); [exfalso; apply (RO' t' im' H); assumption|reflexivity].
  - intros u Hu. rewrite s_bind. destruct (A2 u Hu) as [(m & E)|(t' & im' & [H|H] & E)]; rewrite E; cbn.
    + left. exists m. reflexivity.
    + injection H as <- <-. rewrite Nat.eqb_refl. left. exists n. reflexivity.
    + destruct (Nat.eqb_spec t' t); [left; exists n; reflexivity|]. right. exists t', im'. auto.
  - cbn in A3. inversion A3; assumption.
  - intros t' im' H u y E H0. rewrite s_bind in E. apply rb_T in E; [|apply (RO' t' im' H)|intros m Q; discriminate Q].
    rewrite map_bind, val_bind. apply in_map. apply (A4 t' im' (or_intror H) u y E H0).
  - intros u y H0. rewrite s_bind, val_bind. pose proof (A5 u y H0) as NE.
    destruct (s u) as [a|a] eqn:EU; destruct (val s y) as [b|b] eqn:EY; cbn.
    + congruence.
    + destruct (Nat.eqb_spec b t) as [->|]; [|discriminate]. intros E. injection E as ->. apply N. destruct y as [y|y]; [discriminate EY|]. cbn in EY.
      pose proof (A4 t im (or_introl eq_refl) y (T u) EY (I0_sym _ _ H0)) as Q. cbn in Q. rewrite EU in Q. exact Q.
    + destruct (Nat.eqb_spec a t) as [->|]; [|discriminate]. intros E. injection E as ->. apply N. rewrite <- EY. apply (A4 t im (or_introl eq_refl) u y EU H0).
    + destruct (Nat.eqb_spec a t) as [->|Na]; destruct (Nat.eqb_spec b t) as [->|Nb]; try congruence.
Qed.
Lemma conv_A : forall s t im R n, ainv s ((t, im) :: R) -> conv s R -> conv (bind s t (A n)) R.
Proof.
  intros s t im R n IV C t' im' H v Hv. rewrite map_bind in Hv. apply in_map_iff in Hv. destruct Hv as (v0 & <- & Hv).
  destruct (C t' im' H v0 Hv) as (u & y & E1 & E2 & E3). exists u, y. rewrite s_bind, val_bind, E3. split; [|auto]. rewrite E1. cbn.
  destruct (Nat.eqb_spec t' t); [exfalso; apply (root_other _ _ _ _ _ _ IV H); assumption|reflexivity].
Qed.

Lemma rb_TT : forall t t1 v, t <> t1 -> (rb t1 (T t) v = T t <-> v = T t \/ v = T t1).
Proof.
  intros t t1 [n|n] N; cbn; [split; [discriminate|intros [E|E]; discriminate E]|]. destruct (Nat.eqb_spec n t1) as [->|M]; split; auto; intros [E|E]; congruence.
Qed.
Lemma bind_T : forall s t im t1 im1 R U, ainv s ((t, im) :: (t1, im1) :: R) -> ~ In (T t1) (map (val s) im) ->
  (forall v, In v (map (val s) U) <-> In v (map (val s) im) \/ In v (map (val s) im1)) -> ainv (bind s t1 (T t)) ((t, U) :: R).
Proof.
  intros s t im t1 im1 R U IV N HU.
  assert (D1 : t1 <> t) by (apply (root_other _ _ _ _ t1 im1 IV); left; reflexivity).
  assert (IV2 : ainv s ((t1, im1) :: (t, im) :: R)) by (apply (ainv_perm _ _ _ (perm_swap _ _ _)); exact IV).
  assert (RO : forall t' im', In (t', im') R -> t' <> t /\ t' <> t1).
  { intros t' im' H. split; [apply (root_other _ _ _ _ t' im' IV); right; exact H|apply (root_other _ _ _ _ t' im' IV2); right; exact H]. }
  destruct IV as [A1 A2 A3 A4 A5]. constructor.
  - intros t' im' [H|H].
    + injection H as <- <-. rewrite s_bind, (A1 t im) by (left; reflexivity). cbn. destruct (Nat.eqb_spec t t1); [congruence|reflexivity].
    + rewrite s_bind, (A1 t' im') by (right; right; exact H). cbn. destruct (Nat.eqb_spec t' t1); [exfalso; apply (proj2 (RO t' im' H)); assumption|reflexivity].
  - intros u Hu. rewrite s_bind. destruct (A2 u Hu) as [(m & E)|(t' & im' & [H|[H|H]] & E)]; rewrite E; cbn.
    + left. exists m. reflexivity.
    + injection H as <- <-. destruct (Nat.eqb_spec t t1); [congruence|]. right. exists t, U. cbn. auto.
    + injection H as <- <-. rewrite Nat.eqb_refl. right. exists t, U. cbn. auto.
    + destruct (Nat.eqb_spec t' t1); [exfalso; apply (proj2 (RO t' im' H)); assumption|]. right. exists t', im'. cbn. auto.
  - cbn in *. inversion A3; subst. inversion H2; subst. constructor; [|assumption]. intros Q. apply H1. right. exact Q.
  - intros t' im' [H|H] u y E H0.
    + injection H as <- <-. rewrite s_bind in E. apply rb_TT in E; [|congruence]. rewrite map_bind, val_bind. apply in_map. apply HU.
      destruct E as [E|E]; [left; apply (A4 t im (or_introl eq_refl) u y E H0)|right; apply (A4 t1 im1 (or_intror (or_introl eq_refl)) u y E H0)].
    + rewrite s_bind in E. destruct (RO t' im' H) as (Q1 & Q2). apply rb_T in E; [|exact Q2|intros m Q; injection Q as <-; congruence].
      rewrite map_bind, val_bind. apply in_map. apply (A4 t' im' (or_intror (or_intror H)) u y E H0).
  - intros u y H0. rewrite s_bind, val_bind. pose proof (A5 u y H0) as NE.
    destruct (s u) as [a|a] eqn:EU; destruct (val s y) as [b|b] eqn:EY; cbn.
    + congruence.
    + destruct (Nat.eqb_spec b t1); discriminate.
    + destruct (Nat.eqb_spec a t1); discriminate.
    + destruct (Nat.eqb_spec a t1) as [->|Na]; destruct (Nat.eqb_spec b t1) as [->|Nb]; try congruence.
      * intros E. injection E as <-. apply N. destruct y as [y|y]; [discriminate EY|]. cbn in EY.
        pose proof (A4 t im (or_introl eq_refl) y (T u) EY (I0_sym _ _ H0)) as Q. cbn in Q. rewrite EU in Q. exact Q.
      * intros E. injection E as ->. apply N. rewrite <- EY. apply (A4 t im (or_introl eq_refl) u y EU H0).
Qed.
Lemma conv_T : forall s t im t1 im1 R U, ainv s ((t, im) :: (t1, im1) :: R) -> conv s ((t, im) :: (t1, im1) :: R) ->
  (forall v, In v (map (val s) U) <-> In v (map (val s) im) \/ In v (map (val s) im1)) -> conv (bind s t1 (T t)) ((t, U) :: R).
Proof.
  intros s t im t1 im1 R U IV C HU t' im' H v Hv. rewrite map_bind in Hv. apply in_map_iff in Hv. destruct Hv as (v0 & <- & Hv).
  assert (D1 : t1 <> t) by (apply (root_other _ _ _ _ t1 im1 IV); left; reflexivity).
  assert (IV2 : ainv s ((t1, im1) :: (t, im) :: R)) by (apply (ainv_perm _ _ _ (perm_swap _ _ _)); exact IV).
  destruct H as [H|H].
  - injection H as <- <-. apply HU in Hv. assert (Q : exists u y, (s u = T t \/ s u = T t1) /\ I0 u y /\ val s y = v0).
    { destruct Hv as [Hv|Hv]; [destruct (C t im (or_introl eq_refl) v0 Hv) as (u & y & Q1 & Q2)|destruct (C t1 im1 (or_intror (or_introl eq_refl)) v0 Hv) as (u & y & Q1 & Q2)]; exists u, y; auto. }
    destruct Q as (u & y & Q1 & Q2 & Q3). exists u, y. rewrite s_bind, val_bind, Q3. split; [|auto]. apply rb_TT; [congruence|exact Q1].
  - destruct (C t' im' (or_intror (or_intror H)) v0 Hv) as (u & y & E1 & E2 & E3). exists u, y. rewrite s_bind, val_bind, E3. split; [|auto]. rewrite E1. cbn.
    destruct (Nat.eqb_spec t' t1); [exfalso; apply (root_other _ _ _ _ t' im' IV2); [right; exact H|assumption]|reflexivity].
Qed.

(** the wishes *)
Definition wall (s : binding) (t : nat) (wish : list reg) : Prop := forall u x, s u = T t -> W0 u x -> In (val s x) (map (val s) wish).
Definition wsound (s : binding) (t : nat) (wish : list reg) : Prop := forall v, In v (map (val s) wish) -> exists u x, s u = T t /\ W0 u x /\ val s x = v.
Definition handled (s : binding) (t : nat) (im : list reg) (x : reg) : Prop :=
  val s x = T t \/ (exists n, val s x = A n) \/ In (val s x) (map (val s) im).
Definition dinv (s : binding) (t : nat) (im : list reg) : Prop := forall u x, s u = T t -> W0 u x -> handled s t im x.
Definition recs (l : list tmp) : list (nat * list reg) := map (fun x => (t_reg x, t_imposs x)) l.

Lemma rb_other : forall t1 x d, d <> t1 -> rb t1 x (T d) = T d.
Proof. intros t1 x d N. cbn. destruct (Nat.eqb_spec d t1); congruence. Qed.
Lemma handled_bind : forall s t im t1 x y, t <> t1 -> handled s t im y -> handled (bind s t1 x) t im y.
Proof.
  intros s t im t1 x y N H. unfold handled in *. rewrite val_bind, map_bind. destruct H as [->|[(n & ->)|H]].
  - left. apply rb_other. exact N.
  - right. left. exists n. reflexivity.
  - right. right. apply in_map. exact H.
Qed.
Lemma dinv_bind : forall s t im t1 x, t <> t1 -> (forall m, x = T m -> m <> t) -> dinv s t im -> dinv (bind s t1 x) t im.
Proof. intros s t im t1 x N NX H u y E Hw. rewrite s_bind in E. apply rb_T in E; [|exact N|exact NX]. apply handled_bind; [exact N|]. apply (H u y E Hw). Qed.
Lemma wall_bind : forall s t wi t1 x, t <> t1 -> (forall m, x = T m -> m <> t) -> wall s t wi -> wall (bind s t1 x) t wi.
Proof. intros s t wi t1 x N NX H u y E Hw. rewrite s_bind in E. apply rb_T in E; [|exact N|exact NX]. rewrite val_bind, map_bind. apply in_map. apply (H u y E Hw). Qed.
Lemma wsound_bind : forall s t wi t1 x, t <> t1 -> wsound s t wi -> wsound (bind s t1 x) t wi.
Proof.
  intros s t wi t1 x N H v Hv. rewrite map_bind in Hv. apply in_map_iff in Hv. destruct Hv as (v0 & <- & Hv). destruct (H v0 Hv) as (u & y & Q1 & Q2 & Q3).
  exists u, y. rewrite s_bind, val_bind, Q1, Q3. split; [apply rb_other; exact N|auto].
Qed.

Lemma remove_ok : forall s l x t1, (forall y, In y l -> s (t_reg y) = T (t_reg y)) -> val s x = T t1 -> In t1 (keys l) ->
  exists y l', remove_tmp s l x = Some (y, l') /\ t_reg y = t1 /\ Permutation l (y :: l').
Proof.
  intros s. induction l as [|z l IH]; intros x t1 R E H; [destruct H|]. cbn [remove_tmp].
  assert (Z : same s x (T (t_reg z)) = true <-> t1 = t_reg z). { rewrite same_eq, E. cbn. rewrite (R z (or_introl eq_refl)). split; congruence. }
  destruct (same s x (T (t_reg z))).
  - exists z, l. split; [reflexivity|]. split; [symmetry; apply Z; reflexivity|reflexivity].
  - destruct H as [H|H]; [exfalso; assert (Q : false = true) by (apply Z; auto); discriminate Q|].
    destruct (IH x t1 (fun y Hy => R y (or_intror Hy)) E H) as (y & l' & -> & Q2 & Q3). exists y, (z :: l'). split; [reflexivity|]. split; [exact Q2|].
    transitivity (z :: y :: l'); [constructor; exact Q3|apply perm_swap].
Qed.

Definition linv (s : binding) (l : list tmp) : Prop := forall x, In x l -> wall s (t_reg x) (t_wish x) /\ wsound s (t_reg x) (t_wish x).
Definition Dinv (s : binding) (d : list (nat * list reg)) : Prop := forall t im, In (t, im) d -> dinv s t im.

Lemma collapse_cons : forall k s x wish im l t, collapse_tmps k s (x :: wish) im l t =
  (if same s x (T t) || set_elt (same s) im x then collapse_tmps k s wish im l t
   else match val s x with
        | A n => match collapse_tmps k s wish im l t with Some (s, w1, im, l) => Some (s, A n :: w1, im, l) | None => None end
        | T t1 => match k with
                  | O => None
                  | S k => match remove_tmp s l x with
                           | Some (y, l) => collapse_tmps k (bind s t1 (T t)) (set_union (same s) wish (t_wish y)) (set_union (same s) im (t_imposs y)) l t
                           | None => None
                           end
                  end
        end).
Proof. destruct k; reflexivity. Qed.
Lemma collapse_ok : forall k s wish im l t d, length l <= k ->
  ainv s ((t, im) :: recs l ++ d) -> conv s ((t, im) :: recs l ++ d) -> linv s l -> Dinv s d -> wsound s t wish ->
  (forall u x, s u = T t -> W0 u x -> In (val s x) (map (val s) wish) \/ handled s t im x) ->
  exists s' w1 im' l', collapse_tmps k s wish im l t = Some (s', w1, im', l') /\ length l' <= length l /\
    ainv s' ((t, im') :: recs l' ++ d) /\ conv s' ((t, im') :: recs l' ++ d) /\ linv s' l' /\ Dinv s' d /\ dinv s' t im' /\ (forall x, In x w1 -> exists n, x = A n).
Proof.
  induction k as [k IHk] using lt_wf_ind; intros s wish im l t d LK IV CV LI DI.
  assert (ER : s t = T t) by (apply (a_root _ _ IV t im); left; reflexivity).
  assert (GO : forall wish, wsound s t wish -> forall x, In (val s x) (map (val s) wish) -> forall t1, val s x = T t1 -> t1 <> t -> ~ In (T t1) (map (val s) im) -> In t1 (keys l)).
  { intros wi WS x Hx t1 E N NI. destruct (WS _ Hx) as (u & y & Eu & Hw & Ey). rewrite E in Ey. destruct y as [y|y]; [discriminate Ey|]. cbn in Ey.
    pose proof (W0_sym _ _ Hw) as Hw'. destruct (a_cover _ _ IV y (W0_key _ _ Hw')) as [(n & Q)|(t2 & im2 & Q1 & Q2)]; [congruence|].
    assert (t2 = t1) as -> by congruence. destruct Q1 as [Q1|Q1]; [injection Q1 as Q1 _; congruence|].
    apply in_app_iff in Q1. destruct Q1 as [Q1|Q1]; [unfold recs in Q1; apply in_map_iff in Q1; destruct Q1 as (z & Z1 & Z2); injection Z1 as <- _; apply in_map; exact Z2|].
    exfalso. destruct (DI t1 im2 Q1 y (T u) Ey Hw') as [Q|[(n & Q)|Q]]; cbn in Q; rewrite Eu in Q; [congruence|discriminate Q|].
    destruct (CV t1 im2) with (v := T t) as (u2 & y2 & Z1 & Z2 & Z3); [right; apply in_app_iff; auto|exact Q|].
    destruct y2 as [y2|y2]; [discriminate Z3|]. cbn in Z3. apply NI.
    pose proof (a_imp _ _ IV t im (or_introl eq_refl) y2 (T u2) Z3 (I0_sym _ _ Z2)) as Q4. cbn in Q4. rewrite Z1 in Q4. exact Q4. }
  induction wish as [|x wi IHw]; intros WSi WHi.
  { exists s, [], im, l. split; [destruct k; reflexivity|]. split; [lia|]. split; [exact IV|]. split; [exact CV|]. split; [exact LI|]. split; [exact DI|]. split; [|intros x []].
    intros u x E Hw. destruct (WHi u x E Hw) as [[]|Q]. exact Q. }
  rewrite collapse_cons.
  assert (SW : wsound s t wi) by (intros v Hv; apply WSi; right; exact Hv).
  assert (SKIP : handled s t im x -> forall u y, s u = T t -> W0 u y -> In (val s y) (map (val s) wi) \/ handled s t im y).
  { intros HX u y E Hw. destruct (WHi u y E Hw) as [[Q|Q]|Q]; [right; unfold handled in *; rewrite <- Q; exact HX|auto|auto]. }
  destruct (same s x (T t) || set_elt (same s) im x) eqn:EC.
  { apply IHw; [exact SW|]. apply SKIP. apply orb_true_iff in EC. destruct EC as [EC|EC]; [apply same_eq in EC; cbn in EC; rewrite ER in EC; left; exact EC|apply selt_In in EC; right; right; exact EC]. }
  apply orb_false_iff in EC. destruct EC as (EC1 & EC2).
  assert (NI : ~ In (val s x) (map (val s) im)) by (rewrite <- selt_In, EC2; discriminate).
  destruct (val s x) as [n|t1] eqn:EX.
  { destruct (IHw SW (SKIP (or_intror (or_introl (ex_intro _ n EX))))) as (s' & w1 & im' & l' & -> & Q2 & Q3 & Q4 & Q5 & Q6 & Q7 & Q8).
    exists s', (A n :: w1), im', l'. split; [reflexivity|]. repeat (split; [assumption|]). intros y [<-|Hy]; [exists n; reflexivity|apply Q8; exact Hy]. }
  assert (N1 : t1 <> t) by (intros ->; assert (Q : same s x (T t) = true) by (apply same_eq; cbn; congruence); congruence).
  assert (KL : In t1 (keys l)) by (apply (GO (x :: wi) WSi x); [left; reflexivity|exact EX|exact N1|exact NI]).
  destruct k as [|k].
  - exfalso. destruct l; [destruct KL|cbn in LK; lia].
  - destruct (remove_ok s l x t1) as (y & l1 & -> & Ey & P1); [intros z Hz; apply (a_root _ _ IV _ (t_imposs z)); right; apply in_app_iff; left; apply (in_map (fun x => (t_reg x, t_imposs x))); exact Hz|exact EX|exact KL|].
    set (U := set_union (same s) im (t_imposs y)). set (wi1 := set_union (same s) wi (t_wish y)).
    assert (PR : Permutation ((t, im) :: recs l ++ d) ((t, im) :: (t1, t_imposs y) :: recs l1 ++ d)).
    { constructor. rewrite <- Ey. change ((t_reg y, t_imposs y) :: recs l1 ++ d) with (recs (y :: l1) ++ d). apply Permutation_app_tail. apply (Permutation_map _ P1). }
    pose proof (ainv_perm _ _ _ PR IV) as IV1. pose proof (conv_perm _ _ _ PR CV) as CV1.
    assert (HU : forall v, In v (map (val s) U) <-> In v (map (val s) im) \/ In v (map (val s) (t_imposs y))) by (intros v; apply sunion_In).
    assert (RO : forall t' im', In (t', im') (recs l1 ++ d) -> t' <> t /\ t' <> t1).
    { intros t' im' H. split; [apply (root_other _ _ _ _ t' im' IV1); right; exact H|]. apply (root_other _ _ _ _ t' im' (ainv_perm _ _ _ (perm_swap _ _ _) IV1)). right. exact H. }
    destruct (IHk k (Nat.lt_succ_diag_r k) (bind s t1 (T t)) wi1 U l1 t d) as (s' & w1 & im' & l' & Q1 & Q2 & Q).
    + apply Permutation_length in P1. cbn in P1. lia.
    + apply (bind_T s t im t1 (t_imposs y)); assumption.
    + apply (conv_T s t im t1 (t_imposs y)); assumption.
    + intros z Hz. assert (Hzl : In z l) by (apply (Permutation_in _ (Permutation_sym P1)); right; exact Hz).
      assert (HR : In (t_reg z, t_imposs z) (recs l1 ++ d)) by (apply in_app_iff; left; apply (in_map (fun x => (t_reg x, t_imposs x))); exact Hz).
      destruct (RO _ _ HR) as (R1 & R2). destruct (LI z Hzl) as (L1 & L2). split; [apply wall_bind; [exact R2|intros m Q; injection Q as <-; congruence|exact L1]|apply wsound_bind; [exact R2|exact L2]].
    + intros t' im' H. destruct (RO t' im') as (R1 & R2); [apply in_app_iff; auto|]. apply dinv_bind; [exact R2|intros m Q; injection Q as <-; congruence|apply DI; exact H].
    + assert (Hy : In y l) by (apply (Permutation_in _ (Permutation_sym P1)); left; reflexivity). destruct (LI y Hy) as (_ & L2). rewrite Ey in L2.
      intros v Hv. rewrite map_bind in Hv. apply in_map_iff in Hv. destruct Hv as (v0 & <- & Hv). apply sunion_In in Hv.
      assert (Q : exists u z, (s u = T t \/ s u = T t1) /\ W0 u z /\ val s z = v0) by (destruct Hv as [Hv|Hv]; [destruct (SW v0 Hv) as (u & z & Q1 & Q2)|destruct (L2 v0 Hv) as (u & z & Q1 & Q2)]; exists u, z; auto).
      destruct Q as (u & z & Q1 & Q2 & Q3). exists u, z. rewrite s_bind, val_bind, Q3. split; [|auto]. apply rb_TT; [congruence|exact Q1].
    + assert (Hy : In y l) by (apply (Permutation_in _ (Permutation_sym P1)); left; reflexivity). destruct (LI y Hy) as (L1 & _). rewrite Ey in L1.
      intros u z E Hw. rewrite s_bind in E. apply rb_TT in E; [|congruence]. rewrite val_bind, map_bind.
      assert (HH : In (val s z) (map (val s) wi1) \/ (val s z = T t1 \/ handled s t U z)).
      { destruct E as [E|E].
        - destruct (WHi u z E Hw) as [[Q|Q]|Q]; [right; left; congruence|left; apply sunion_In; auto|].
          right. right. destruct Q as [Q|[Q|Q]]; [left; exact Q|right; left; exact Q|right; right; apply HU; auto].
        - left. apply sunion_In. right. apply (L1 u z E Hw). }
      destruct HH as [Q|[Q|Q]]; [left; apply in_map; exact Q| |right; apply handled_bind; [congruence|exact Q]].
      right. left. rewrite val_bind, Q. cbn. rewrite Nat.eqb_refl. reflexivity.
    + fold U wi1. rewrite Q1. exists s', w1, im', l'. split; [reflexivity|]. split; [apply Permutation_length in P1; cbn in P1; lia|exact Q].
Qed.

Lemma wishes_ok : forall k s l d, length l <= k -> ainv s (recs l ++ d) -> conv s (recs l ++ d) -> linv s l -> Dinv s d ->
  exists s' d', assign_wishes k s l = Some (s', d') /\ ainv s' (d' ++ d).
Proof.
  induction k as [|k IH]; intros s l d LK IV CV LI DI; (destruct l as [|x l]; [exists s, []; split; [reflexivity|exact IV]|]); [cbn in LK; lia|]. cbn [assign_wishes].
  destruct (collapse_ok (length l) s (t_wish x) (t_imposs x) l (t_reg x) d (le_n _) IV CV) as (s1 & w1 & im & l1 & -> & Q2 & Q3 & Q4 & Q5 & Q6 & Q7 & Q8).
  - intros y Hy. apply LI. right. exact Hy.
  - exact DI.
  - apply (LI x). left. reflexivity.
  - intros u y E Hw. left. apply (proj1 (LI x (or_introl eq_refl)) u y E Hw).
  - assert (ER : s1 (t_reg x) = T (t_reg x)) by (apply (a_root _ _ Q3 _ im); left; reflexivity). cbn in LK.
    assert (RO : forall t' im', In (t', im') (recs l1 ++ d) -> t' <> t_reg x) by (intros t' im' H; apply (root_other _ _ _ _ t' im' Q3 H)).
    unfold try_a_whish. destruct (set_diff (same s1) w1 im) as [|z zs] eqn:ED.
    + destruct (IH s1 l1 ((t_reg x, im) :: d)) as (s' & d' & -> & IV'); [lia| | |exact Q5| |].
      * apply (ainv_perm _ _ _ (Permutation_middle _ _ _)). exact Q3.
      * apply (conv_perm _ _ _ (Permutation_middle _ _ _)). exact Q4.
      * intros t' im' [H|H]; [injection H as <- <-; exact Q7|apply Q6; exact H].
      * rewrite ER. cbn [is_var]. eexists. eexists. split; [reflexivity|]. cbn [app]. apply (ainv_perm _ _ _ (Permutation_sym (Permutation_middle _ _ _))). exact IV'.
    + destruct (sdiff_In s1 w1 im z) as (Z1 & Z2); [rewrite ED; left; reflexivity|]. destruct (Q8 z Z1) as (n & ->). cbn [val] in *.
      assert (EB : is_var (bind s1 (t_reg x) (A n) (t_reg x)) = false) by (rewrite s_bind, ER; cbn; rewrite Nat.eqb_refl; reflexivity). rewrite EB.
      destruct (IH (bind s1 (t_reg x) (A n)) l1 d) as (s' & d' & -> & IV'); [lia| | | | |].
      * apply (bind_A s1 (t_reg x) im); assumption.
      * apply (conv_A s1 (t_reg x) im); [assumption|]. intros t' im' H. apply Q4. right. exact H.
      * intros y Hy. assert (HR : t_reg y <> t_reg x) by (apply (RO _ (t_imposs y)); apply in_app_iff; left; apply (in_map (fun x => (t_reg x, t_imposs x))); exact Hy).
        destruct (Q5 y Hy). split; [apply wall_bind; [exact HR|intros m Q; discriminate Q|assumption]|apply wsound_bind; assumption].
      * intros t' im' H. apply dinv_bind; [apply (RO t' im'); apply in_app_iff; auto|intros m Q; discriminate Q|apply Q6; exact H].
      * eexists. eexists. split; [reflexivity|exact IV'].
Qed.

(** values *)
Fixpoint incr (b : nat) (l : list nat) : Prop := match l with [] => True | n :: l => b <= n /\ incr (S n) l end.
Lemma incr_le : forall l b b', b' <= b -> incr b l -> incr b' l.
Proof. intros [|n l] b b' L H; cbn in *; [exact H|]. split; [lia|tauto]. Qed.
Lemma insert_incr : forall l b n, b <= n -> incr b l -> incr b (insert_int n l).
Proof.
  induction l as [|m l IH]; intros b n L H; cbn [insert_int incr] in *; [auto|]. destruct H as (H1 & H2). destruct (Nat.ltb_spec n m); [cbn; repeat split; try lia; exact H2|].
  destruct (Nat.eqb_spec n m); [cbn; auto|]. cbn. split; [exact H1|]. apply IH; [lia|exact H2].
Qed.
Lemma insert_In : forall l n x, In x (insert_int n l) <-> x = n \/ In x l.
Proof.
  induction l as [|m l IH]; intros n x; cbn [insert_int]; [cbn; intuition auto|]. destruct (n <? m); [cbn; intuition auto|]. destruct (Nat.eqb_spec n m) as [->|]; cbn; [intuition auto|].
  rewrite IH. intuition auto.
Qed.
Lemma vars_ints_ok : forall l v i, vars_ints l = (v, i) -> incr 0 i /\ (forall n, In n i <-> In (A n) l) /\ (forall x, In x v -> exists t, x = T t).
Proof.
  induction l as [|x l IH]; intros v i E; cbn in E; [injection E as <- <-; cbn; repeat split; intros; try tauto|].
  destruct (vars_ints l) as [v1 i1]. destruct (IH v1 i1 eq_refl) as (H1 & H2 & H3). destruct x as [n|t]; injection E as <- <-.
  - split; [apply insert_incr; [lia|exact H1]|]. split; [|exact H3]. intros m. rewrite insert_In, H2. cbn. split; intros [E|E]; [left; congruence|auto|left; congruence|auto].
  - split; [exact H1|]. split; [intros m; rewrite H2; cbn; split; [auto|intros [E|E]; [discriminate E|exact E]]|]. intros y [<-|Hy]; [exists t; reflexivity|auto].
Qed.
Lemma hole_vars : forall v l nb, (forall x, In x v -> exists t, x = T t) -> find_hole (v ++ l) nb = find_hole l nb.
Proof.
  induction v as [|x v IH]; intros l nb H; cbn; [reflexivity|]. destruct (H x (or_introl eq_refl)) as (t & ->). apply IH. intros y Hy. apply H. right. exact Hy.
Qed.
Lemma incr_ge : forall i b n, incr b i -> In n i -> b <= n.
Proof. induction i as [|m i IH]; intros b n H E; [destruct E|]; destruct E as [E|E]; cbn in H; [lia|]. destruct H as (H1 & H2). pose proof (IH _ _ H2 E). lia. Qed.
Lemma hole_ints : forall i b nb, incr b i -> nb <= find_hole (map A i) nb /\ ~ In (find_hole (map A i) nb) i.
Proof.
  induction i as [|n i IH]; intros b nb H; cbn [find_hole map In]; [split; [lia|auto]|]. destruct H as (H1 & H2). destruct (Nat.ltb_spec nb n).
  - split; [lia|]. intros [E|E]; [lia|]. pose proof (incr_ge _ _ _ H2 E). lia.
  - destruct (Nat.eqb_spec n nb) as [->|N]; [destruct (IH (S nb) (nb + 1) H2) as (Q1 & Q2)|destruct (IH (S n) nb H2) as (Q1 & Q2)]; (split; [lia|]; intros [E|E]; [lia|contradiction]).
Qed.
Lemma hole_ok : forall l, ~ In (A (find_hole (sort l) 0)) l.
Proof.
  intros l H. unfold sort in H. destruct (vars_ints l) as [v i] eqn:E. destruct (vars_ints_ok l v i E) as (H1 & H2 & H3). rewrite hole_vars in H by exact H3.
  apply (proj2 (hole_ints i 0 0 H1)). apply H2. exact H.
Qed.
Lemma values_ok : forall l s m, ainv s l -> exists s' m', assign_values s l m = (s', m') /\ (forall u, K0 u -> exists n, s' u = A n) /\ (forall u y, I0 u y -> s' u <> val s' y).
Proof.
  induction l as [|[t im] l IH]; intros s m IV; cbn [assign_values].
  - exists s, m. split; [reflexivity|]. split; [|exact (a_ok _ _ IV)]. intros u H. destruct (a_cover _ _ IV u H) as [Q|(t & im & [] & _)]. exact Q.
  - apply IH. apply (bind_A s t im); [exact IV|apply hole_ok].
Qed.
End Assign.

Lemma W_sym_keys : forall l t y, W l t y -> In t (keys l).
Proof. intros l t y (x & H1 & <- & _). apply in_map. exact H1. Qed.
Lemma I_keys : forall l t y, I l t y -> In t (keys l).
Proof. intros l t y (x & H1 & <- & _). apply in_map. exact H1. Qed.
Lemma key_eq : forall l x y, NoDup (keys l) -> In x l -> In y l -> t_reg x = t_reg y -> x = y.
Proof.
  induction l as [|z l IH]; intros x y ND Hx Hy E; [destruct Hx|]. cbn in ND. inversion ND; subst. destruct Hx as [->|Hx]; destruct Hy as [->|Hy]; auto.
  - exfalso. apply H1. rewrite E. apply in_map. exact Hy.
  - exfalso. apply H1. rewrite <- E. apply in_map. exact Hx.
Qed.
Lemma assign_ok : forall opt life l, ginv life l -> symW l ->
  exists s m, assign_lst_tmp opt l = Some (s, m) /\ (forall u, In u (keys l) -> exists n, s u = A n) /\ (forall u y, I l u y -> s u <> val s y).
Proof.
  intros opt life l [G1 G2 G3 G4 G5] SW. unfold assign_lst_tmp.
  assert (B : forall (f : tmp -> list reg), (forall x y, In y (t_imposs x) -> In y (f x)) -> ainv (fun u => In u (keys l)) (I l) T (map (fun x => (t_reg x, f x)) l)).
  { intros f Hf. constructor.
    - reflexivity.
    - intros u H. right. unfold keys in H. apply in_map_iff in H. destruct H as (x & <- & Hx). exists (t_reg x), (f x). split; [apply (in_map (fun x => (t_reg x, f x))); exact Hx|reflexivity].
    - rewrite map_map. exact G2.
    - intros t im H u y E (z & Z1 & Z2 & Z3). apply in_map_iff in H. destruct H as (x & Q & Hx). injection Q as <- <-. injection E as E. assert (z = x) as -> by (apply (key_eq l); auto; congruence).
      apply in_map. apply Hf. exact Z3.
    - intros u y H. destruct y as [n|n]; [discriminate|]. cbn. intros E. injection E as ->. apply (G5 n H). }
  destruct (opt =? 2).
  - destruct (wishes_ok (fun u => In u (keys l)) (I l) (W l) G4 SW (W_sym_keys l) (length l) T l []) as (s & d & -> & IV).
    + lia.
    + rewrite app_nil_r. apply (B t_imposs). auto.
    + rewrite app_nil_r. intros t im H v Hv. unfold recs in H. apply in_map_iff in H. destruct H as (x & Q & Hx). injection Q as <- <-.
      apply in_map_iff in Hv. destruct Hv as (y & <- & Hy). exists (t_reg x), y. split; [reflexivity|]. split; [|reflexivity]. exists x. auto.
    + intros x Hx. split.
      * intros u y E (z & Z1 & Z2 & Z3). injection E as E. assert (z = x) as -> by (apply (key_eq l); auto; congruence). apply in_map. exact Z3.
      * intros v Hv. apply in_map_iff in Hv. destruct Hv as (y & <- & Hy). exists (t_reg x), y. split; [reflexivity|]. split; [|reflexivity]. exists x. auto.
    + intros t im [].
    + rewrite app_nil_r in IV. destruct (values_ok _ _ G4 d s 0 IV) as (s' & m' & -> & Q). exists s', m'. auto.
  - destruct (values_ok (fun u => In u (keys l)) (I l) G4 (no_wish opt l) T 0) as (s' & m' & -> & Q); [|exists s', m'; auto].
    unfold no_wish. apply (B (fun x => if opt =? 0 then union (t_imposs x) (t_wish x) else t_imposs x)). intros x y H. destruct (opt =? 0); [apply union_In; auto|exact H].
Qed.
