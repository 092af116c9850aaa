(** Proofs about constraint propagation. *)
Require Import ZArith List Bool Lia Sorted.
Require Import Verif.Heap_Model Verif.FdRange_Model Verif.FdRange_Spec Verif.FdRange_Proofs Verif.FdRange_Set Verif.FdTell_Model Verif.FdTell_Spec Verif.FdTell_Proofs Verif.FdProp_Model Verif.FdProp_Spec.
Import ListNotations.
Open Scope Z_scope.

Section P.
Variable sz : nat.
Hypothesis small : 64 * Z.of_nat sz <= 2 ^ 28.
Notation vmax := (vmax sz).
Variable junk : list Z.
Variable a : around.
Hypothesis J : vok sz junk.
Hypothesis A : around_ok a.

(** ** Tells on complete domains *)
Lemma stands_dom x : fdv_ok sz x -> stands sz x (dom x).
Proof.
  intros O. unfold stands. destruct (tagv x) as [n|] eqn:E; [|intros k _ _; tauto]. intros k _. apply (bound sz x n O E).
Qed.
Lemma tnv_extra fuel : forall x n m t, extra_cstr (frange x) = false -> (vec (frange x) = None -> tagv x = None -> rmax (frange x) <= vmax) -> tell_not_value sz junk fuel x n m = Ret t ->
  extra_cstr (frange (var t)) = false /\ warned t = false.
Proof.
  clear small J. induction fuel as [|fuel IH]; intros x n m t X V E; cbn [tell_not_value] in E; [discriminate|].
  destruct (Range_Test_Value (frange x) n) as [b| |] eqn:Eb; [|discriminate..]. cbn [bind] in E. destruct b; cbn [negb] in E.
  2: { injection E as <-. cbn. auto. }
  destruct (tagv x) eqn:T; [injection E as <-; cbn; auto|].
  destruct (is_interval (frange x) && negb (n =? rmin (frange x)) && negb (n =? rmax (frange x))) eqn:C.
  - apply andb_true_iff in C. destruct C as [C C3]. apply andb_true_iff in C. destruct C as [C1 C2]. unfold is_interval in C1. destruct (vec (frange x)) eqn:Vx; [discriminate|]. specialize (V eq_refl eq_refl).
    apply negb_true_iff, Z.eqb_neq in C2, C3. unfold Range_Test_Value in Eb. rewrite Vx in Eb. destruct (Z.ltb_spec n (rmin (frange x))); [discriminate|]. destruct (Z.ltb_spec (rmax (frange x)) n); [discriminate|].
    destruct (Z.ltb_spec vmax (rmin (frange x))); [lia|]. destruct (Z.eqb_spec (rmin (frange x)) vmax); [lia|].
    assert (Bs : forall r, Range_Becomes_Sparse sz junk (frange x) = Ret r -> extra_cstr r = false /\ vec r <> None).
    { intros r. unfold Range_Becomes_Sparse. rewrite Vx. assert (Q : (vmax <? rmax (frange x)) = false) by (apply Z.ltb_ge; lia). rewrite Q. match goal with |- context [if ?c then bind _ _ else _] => destruct c end.
      - destruct (Vector_From_Interval _ _ _); [|discriminate..]. cbn [bind]. intros G. injection G as <-. cbn. split; [reflexivity|discriminate].
      - intros G. injection G as <-. cbn. split; [reflexivity|discriminate]. }
    destruct (Range_Becomes_Sparse sz junk (frange x)) as [r| |] eqn:Er; [|discriminate..]. cbn [bind] in E. destruct (Bs r eq_refl) as [B1 B2].
    destruct (ck (rmax r - rmin r)) as [nb| |]; [|discriminate..]. cbn [bind] in E. destruct (ck (nb + 1)) as [nb'| |]; [|discriminate..]. cbn [bind] in E. apply IH in E; [exact E|exact B1|]. cbn. intros G. contradiction.
  - destruct (nb_elem x =? 2).
    + unfold Update_Range_From_Int in E. injection E as <-. cbn. auto.
    + destruct (match vec (frange x) with None => Ret None | Some v => bind (Vector_Reset_Value v n) (fun v => Ret (Some v)) end) as [v| |]; [|discriminate..]. cbn [bind] in E.
      destruct (n =? rmin (frange x)); [|destruct (n =? rmax (frange x))].
      * destruct (match v with None => ck (n + 1) | Some v => Vector_Next_After sz v n end); [|discriminate..]. cbn [bind] in E. injection E as <-. cbn. auto.
      * destruct (match v with None => ck (n - 1) | Some v => Vector_Next_Before sz v n end); [|discriminate..]. cbn [bind] in E. injection E as <-. cbn. auto.
      * injection E as <-. cbn. auto.
Qed.
Lemma trr_extra x r t : extra_cstr (frange x) = false -> extra_cstr r = false -> Tell_Range_Range sz junk a x r = Ret t -> extra_cstr (frange (var t)) = false /\ warned t = false.
Proof.
  clear small J A. intros X R E. unfold Tell_Range_Range in E. destruct (Range_Inter sz junk a r (frange x)) as [r'| |] eqn:Er; [|discriminate..]. cbn [bind] in E.
  assert (X' : extra_cstr r' = false).
  { destruct (vec (frange x)) as [v|] eqn:V.
    - destruct (inter_vec sz _ _ _ _ _ Er) as [s [s1 [P1 [P2 [P3 _]]]]]; [right; congruence|]. unfold sparse_copy in P2. rewrite V in P2. injection P2 as <-. rewrite P3, X. apply andb_false_r.
    - destruct (vec r) as [v1|] eqn:V1.
      + destruct (inter_vec sz _ _ _ _ _ Er) as [s [s1 [P1 [P2 [P3 _]]]]]; [left; congruence|]. unfold sparse_copy in P1. rewrite V1 in P1. injection P1 as <-. rewrite P3, R. reflexivity.
      + unfold Range_Inter in Er. rewrite V, V1 in Er. injection Er as <-. exact R. }
  destruct (Is_Empty r'); [injection E as <-; cbn; auto|]. destruct (rmin r' =? rmax r').
  - unfold Update_Range_From_Int in E. injection E as <-. cbn. auto.
  - destruct (Range_Nb_Elem r') as [nb| |]; [|discriminate..]. cbn [bind] in E. unfold Update_Range_From_Range in E. rewrite X, X' in E. cbn [Bool.eqb] in E. match type of E with context [if ?c then _ else _] => destruct c end; injection E as <-; cbn; auto.
Qed.
Lemma tii_extra x lo hi t : extra_cstr (frange x) = false -> Tell_Interv_Interv x lo hi = Ret t -> extra_cstr (frange (var t)) = false /\ warned t = false.
Proof.
  clear small J A. intros X E. unfold Tell_Interv_Interv in E. cbv zeta in E. destruct (_ <? _); [injection E as <-; cbn; auto|]. destruct (_ =? _); [unfold Update_Range_From_Int in E; injection E as <-; cbn; auto|].
  destruct (ck _) as [nb| |]; [|discriminate..]. cbn [bind] in E. destruct (ck (nb + 1)) as [nb'| |]; [|discriminate..]. cbn [bind] in E. unfold Update_Interval_From_Interval in E. destruct (nb_elem x =? nb'); injection E as <-; cbn; auto.
Qed.
Lemma cvar_dom x n : cvar sz x -> dom x n -> 0 <= n <= IMAX.
Proof. intros [_ [_ [L M]]] [D _]. lia. Qed.
(** what a tell on a complete domain gives *)
Definition told_ok (x : fdv) (k : tellk) (t : told) : Prop :=
  (success t = true -> cvar sz (var t) /\ events x (var t) (propag t) /\ forall n, dom (var t) n <-> dom x n /\ in_tell k n) /\
  (success t = false -> forall n, dom x n -> ~ in_tell k n).
Lemma told_of x k t : cvar sz x -> tell_ok sz x (in_tell k) t -> extra_cstr (frange (var t)) = false -> warned t = false -> told_ok x k t.
Proof.
  intros C [T1 [T2 T3]] X W. pose proof C as [O [Xx [L M]]]. specialize (T2 W). specialize (T3 W). split.
  - intros Su. destruct (T1 Su) as [O' [Ev [[k0 K0] Sub]]]. specialize (T2 Su _ (stands_dom x O)).
    assert (D : forall n, dom (var t) n <-> dom x n /\ in_tell k n).
    { intros n. destruct (Z_le_dec 0 n) as [N|N].
      - unfold stands in T2. destruct (tagv (var t)) as [m|] eqn:Tv.
        + rewrite (T2 n N). apply (bound sz _ m O' Tv).
        + apply T2; auto.
      - split; intros Q; [apply Sub in Q; destruct Q as [Q _]; apply (cvar_dom x n C) in Q; lia|]. destruct Q as [Q _]. apply (cvar_dom x n C) in Q. lia. }
    split; [|split; [exact Ev|exact D]]. split; [exact O'|]. split; [exact X|].
    assert (Ends : dom (var t) (rmin (frange (var t))) /\ dom (var t) (rmax (frange (var t)))).
    { unfold fdv_ok in O'. destruct (tagv (var t)) as [m|] eqn:Tv.
      - assert (O2 : fdv_ok sz (var t)) by (unfold fdv_ok; now rewrite Tv). destruct O' as [_ [Q1 [Q2 _]]]. rewrite Q1, Q2. split; now apply (bound sz _ m O2 Tv).
      - apply (rok_ends sz); [tauto|lia]. }
    destruct Ends as [E1 E2]. apply D in E1, E2. destruct E1 as [E1 _], E2 as [E2 _]. apply (cvar_dom x _ C) in E1, E2. lia.
  - intros Su n D I. apply (T3 Su _ (stands_dom x O) n); [apply (cvar_dom x n C D)|auto].
Qed.
Lemma tellx_ok x k : cvar sz x -> fine sz x k -> exists t, tellx sz junk a x k = Ret t /\ told_ok x k t.
Proof.
  intros C F. pose proof C as [O [X [L M]]]. destruct k as [lo hi|n|n|r]; cbn [tellx fine] in *.
  - destruct F as [F1 F2]. destruct (Tell_Interval_ok sz small junk a x lo hi J A O F1 F2) as [t [Et Ht]]; [intros _ Q; congruence|]. exists t. split; [exact Et|].
    assert (G : extra_cstr (frange (var t)) = false /\ warned t = false).
    { unfold Tell_Interval in Et. destruct (tagv x); [injection Et as <-; cbn; auto|]. destruct (is_interval (frange x)); [exact (tii_extra _ _ _ _ X Et)|exact (trr_extra _ (Range_Interval lo hi) _ X eq_refl Et)]. }
    now apply told_of.
  - destruct (Tell_Value_ok sz small x n O F) as [t [Et Ht]]. exists t. split; [exact Et|].
    assert (G : extra_cstr (frange (var t)) = false /\ warned t = false).
    { unfold Tell_Value in Et. destruct (Range_Test_Value (frange x) n) as [[]| |]; [| |discriminate..]; cbn [bind] in Et; [|injection Et as <-; rewrite X; cbn; auto]. destruct (tagv x); [injection Et as <-; cbn; auto|]. unfold Update_Range_From_Int in Et. injection Et as <-. cbn. auto. }
    now apply told_of.
  - destruct F as [F1 F2]. destruct (Tell_Not_Value_ok sz small junk x n J O F1) as [t [Et Ht]]; [intros Q; congruence|intros [Q1 [_ [_ [_ Q2]]]]; specialize (F2 Q1); lia|]. exists t. split; [exact Et|].
    assert (G : extra_cstr (frange (var t)) = false /\ warned t = false) by (apply (tnv_extra 2 x n 0 t X); [intros _; exact F2|exact Et]).
    now apply told_of.
  - destruct F as [F1 F2]. destruct (Tell_Range_ok sz small junk a x r (rin r) J A O F1) as [t [Et Ht]]; [intros n _ _; tauto|intros _ Q; congruence|]. exists t. split; [exact Et|].
    assert (G : extra_cstr (frange (var t)) = false /\ warned t = false).
    { unfold Tell_Range in Et. destruct (tagv x); [|exact (trr_extra _ _ _ X F2 Et)]. unfold Tell_Int_Range in Et. destruct (Range_Test_Value r _); [|discriminate..]. cbn [bind] in Et. injection Et as <-. rewrite F2, andb_false_r. cbn. auto. }
    now apply told_of.
Qed.
(** ** Aspects of a domain and chains *)
Definition same_aspect (c : nat) (x y : fdv) : Prop :=
  match c with
  | 0%nat => rmin (frange x) = rmin (frange y)
  | 1%nat => rmax (frange x) = rmax (frange y)
  | 2%nat => rmin (frange x) = rmin (frange y) /\ rmax (frange x) = rmax (frange y)
  | 3%nat => forall n, dom x n <-> dom y n
  | _ => tagv x = tagv y
  end.
Lemma cvar_ends x : cvar sz x -> dom x (rmin (frange x)) /\ dom x (rmax (frange x)).
Proof.
  intros [O _]. destruct (tagv x) as [m|] eqn:T.
  - pose proof (bound sz x m O T) as B. unfold fdv_ok in O. rewrite T in O. destruct O as [_ [Q1 [Q2 _]]]. rewrite Q1, Q2. split; now apply B.
  - unfold fdv_ok in O. rewrite T in O. apply (rok_ends sz); [tauto|lia].
Qed.
Lemma cvar_listing x : cvar sz x -> exists l, listing (frange x) l /\ nb_elem x = Z.of_nat (length l).
Proof.
  intros [O _]. destruct (tagv x) as [m|] eqn:T.
  - pose proof (bound sz x m O T) as B. unfold fdv_ok in O. rewrite T in O. exists [m]. split; [|tauto]. split; [repeat constructor|]. intros n. rewrite B. cbn. intuition.
  - unfold fdv_ok in O. rewrite T in O. tauto.
Qed.
Lemma nb_le x y : cvar sz x -> cvar sz y -> (forall n, dom y n -> dom x n) -> nb_elem y <= nb_elem x.
Proof.
  intros Cx Cy S. destruct (cvar_listing x Cx) as [l [L1 ->]], (cvar_listing y Cy) as [l' [L2 ->]]. pose proof (card_le _ _ _ _ L1 L2 S). lia.
Qed.
Lemma nb_less x y k : cvar sz x -> cvar sz y -> (forall n, dom y n -> dom x n) -> dom x k -> ~ dom y k -> nb_elem y < nb_elem x.
Proof.
  intros Cx Cy S K N. destruct (cvar_listing x Cx) as [l [L1 ->]], (cvar_listing y Cy) as [l' [L2 ->]]. pose proof (card_le _ _ _ _ L1 L2 S).
  destruct (Nat.eq_dec (length l) (length l')) as [E|E]; [|lia]. exfalso. apply N. exact (card_eq _ _ _ _ L1 L2 S E k K).
Qed.
Lemma nb_pos x : cvar sz x -> 0 < nb_elem x.
Proof.
  intros C. destruct (cvar_listing x C) as [l [L ->]]. destruct l; [|cbn; lia]. exfalso. apply (proj2 (proj2 L (rmin (frange x)))). now apply cvar_ends.
Qed.
Lemma tag_same x y : cvar sz x -> cvar sz y -> (forall n, dom y n -> dom x n) -> ~ (tagv x = None /\ tagv y <> None) -> tagv x = tagv y.
Proof.
  intros Cx Cy S N. destruct (tagv x) as [m|] eqn:Tx.
  - pose proof (bound sz x m (proj1 Cx) Tx) as B. destruct (tagv y) as [n|] eqn:Ty.
    + pose proof (bound sz y n (proj1 Cy) Ty) as B'. f_equal. symmetry. apply B, S. now apply B'.
    + exfalso. destruct (unbound sz y (proj1 Cy) Ty) as [_ [L _]]. destruct (cvar_ends y Cy) as [E1 E2]. apply S, B in E1, E2. lia.
  - destruct (tagv y); [|reflexivity]. exfalso. apply N. split; [reflexivity|discriminate].
Qed.
Lemma no_event x y m c : cvar sz x -> cvar sz y -> events x y m -> (forall n, dom y n -> dom x n) -> Z.testbit m (Z.of_nat c) = false -> (c < 5)%nat -> same_aspect c x y.
Proof.
  intros Cx Cy [A0 [A1 [A2 [A3 A4]]]] S B C. destruct c as [|[|[|[|[|c]]]]]; cbn [same_aspect]; try change (Z.of_nat 0) with 0 in B; try change (Z.of_nat 1) with 1 in B; try change (Z.of_nat 2) with 2 in B; try change (Z.of_nat 3) with 3 in B; try change (Z.of_nat 4) with 4 in B.
  - destruct (Z.eq_dec (rmin (frange x)) (rmin (frange y))) as [E|E]; [exact E|]. apply A0 in E. congruence.
  - destruct (Z.eq_dec (rmax (frange x)) (rmax (frange y))) as [E|E]; [exact E|]. apply A1 in E. congruence.
  - destruct (Z.eq_dec (rmin (frange x)) (rmin (frange y))) as [E|E]; [|assert (G := proj2 A2 (or_introl E)); congruence]. destruct (Z.eq_dec (rmax (frange x)) (rmax (frange y))) as [E'|E']; [auto|assert (G := proj2 A2 (or_intror E')); congruence].
  - intros n. split; [|apply S]. intros D. destruct (rin_dec sz (frange y) n) as [E|E]; [exact E|]. assert (G := proj2 A3 (or_introl (ex_intro _ n (conj D E)))). congruence.
  - apply tag_same; auto. intros Q. apply A4 in Q. congruence.
  - lia.
Qed.
Lemma event_removes x y m : cvar sz x -> cvar sz y -> events x y m -> (forall n, dom y n -> dom x n) -> (exists c, (c < 5)%nat /\ Z.testbit m (Z.of_nat c) = true) -> nb_elem y < nb_elem x.
Proof.
  intros Cx Cy [A0 [A1 [A2 [A3 A4]]]] S [c [C B]]. destruct (cvar_ends x Cx) as [E1 E2].
  assert (Rm : rmin (frange x) <> rmin (frange y) -> nb_elem y < nb_elem x). { intros N. apply (nb_less x y (rmin (frange x))); auto. intros [D _]. destruct (cvar_ends y Cy) as [F _]. apply S in F. destruct F as [F _]. lia. }
  assert (RM : rmax (frange x) <> rmax (frange y) -> nb_elem y < nb_elem x). { intros N. apply (nb_less x y (rmax (frange x))); auto. intros [D _]. destruct (cvar_ends y Cy) as [_ F]. apply S in F. destruct F as [F _]. lia. }
  destruct c as [|[|[|[|[|c]]]]]; try change (Z.of_nat 0) with 0 in B; try change (Z.of_nat 1) with 1 in B; try change (Z.of_nat 2) with 2 in B; try change (Z.of_nat 3) with 3 in B; try change (Z.of_nat 4) with 4 in B.
  - apply Rm. now apply A0.
  - apply RM. now apply A1.
  - apply A2 in B. destruct B; auto.
  - apply A3 in B. destruct B as [[k [K1 K2]]|B]; [exact (nb_less x y k Cx Cy S K1 K2)|]. exfalso. apply B. destruct Cx as [_ [-> _]], Cy as [_ [-> _]]. reflexivity.
  - apply A4 in B. destruct B as [B1 B2]. destruct (tagv y) as [n|] eqn:Ty; [|contradiction]. destruct (unbound sz x (proj1 Cx) B1) as [_ [L _]]. pose proof (bound sz y n (proj1 Cy) Ty) as B.
    destruct (Z.eq_dec n (rmin (frange x))) as [->|N]; [apply RM|apply Rm]; intros Q; destruct (cvar_ends y Cy) as [F1 F2]; apply B in F1, F2; lia.
  - lia.
Qed.
(** ** What a block reads *)
Definition reads (s s' : nat -> fdv) (f : list aval) (b : block) : Prop :=
  forall i c v, In (i, c) (block_deps (length f) b) -> nth_error f i = Some (AV v) -> same_aspect c (s v) (s' v).
Definition agree (u : use) (x y : fdv) : Prop :=
  (umin u = true -> rmin (frange x) = rmin (frange y)) /\ (umax u = true -> rmax (frange x) = rmax (frange y)) /\ (uval u = true -> rmin (frange x) = rmin (frange y)).
Lemma join_l u w x y : agree (join u w) x y -> agree u x y.
Proof. unfold agree, join. cbn. intros [A1 [A2 A3]]. split; [|split]; intros H; [apply A1|apply A2|apply A3]; now rewrite H. Qed.
Lemma join_r u w x y : agree (join u w) x y -> agree w x y.
Proof. unfold agree, join. cbn. intros [A1 [A2 A3]]. split; [|split]; intros H; [apply A1|apply A2|apply A3]; now rewrite H, orb_true_r. Qed.
Lemma eval_same s s' f t : (forall i v, nth_error f i = Some (AV v) -> agree (tm_use i t) (s v) (s' v)) -> eval s f t = eval s' f t.
Proof.
  clear. induction t as [z|i|i|i|i|t IH1 u IH2|t IH1 u IH2|t IH1 u IH2|t IH1 u IH2|t IH1 u IH2|c IH0 t IH1 u IH2]; intros G; cbn [eval]; try reflexivity.
  1-3: unfold the_var; destruct (nth_error f i) as [[v|]|] eqn:E; cbn [bind]; try reflexivity; specialize (G i v E); cbn [tm_use] in G; rewrite Nat.eqb_refl in G; destruct G as [G1 [G2 G3]]; cbn in *; f_equal; auto.
  1-5: cbn [tm_use] in G; rewrite IH1 by (intros i v E; eapply join_l; now apply G); rewrite IH2 by (intros i v E; eapply join_r; now apply G); reflexivity.
  cbn [tm_use] in G. rewrite IH0 by (intros i v E; eapply join_l; now apply G). rewrite IH1 by (intros i v E; eapply join_l, join_r; now apply G). rewrite IH2 by (intros i v E; eapply join_r, join_r; now apply G). reflexivity.
Qed.
Lemma vals_same s s' f t : (forall i v, nth_error f i = Some (AV v) -> uval (tm_use i t) = true -> tagv (s v) = tagv (s' v)) -> vals_ground s f t = vals_ground s' f t.
Proof.
  clear. induction t as [z|i|i|i|i|t IH1 u IH2|t IH1 u IH2|t IH1 u IH2|t IH1 u IH2|t IH1 u IH2|c IH0 t IH1 u IH2]; intros G; cbn [vals_ground]; try reflexivity.
  - unfold the_var. destruct (nth_error f i) as [[v|]|] eqn:E; cbn [bind]; try reflexivity. unfold is_ground. rewrite (G i v E); [reflexivity|]. cbn [tm_use]. now rewrite Nat.eqb_refl.
  - cbn [tm_use join uval] in G. rewrite IH1 by (intros i v E U; apply (G i v E); now rewrite U). rewrite IH2 by (intros i v E U; apply (G i v E); now rewrite U, orb_true_r). reflexivity.
  - cbn [tm_use join uval] in G. rewrite IH1 by (intros i v E U; apply (G i v E); now rewrite U). rewrite IH2 by (intros i v E U; apply (G i v E); now rewrite U, orb_true_r). reflexivity.
  - cbn [tm_use join uval] in G. rewrite IH1 by (intros i v E U; apply (G i v E); now rewrite U). rewrite IH2 by (intros i v E U; apply (G i v E); now rewrite U, orb_true_r). reflexivity.
  - cbn [tm_use join uval] in G. rewrite IH1 by (intros i v E U; apply (G i v E); now rewrite U). rewrite IH2 by (intros i v E U; apply (G i v E); now rewrite U, orb_true_r). reflexivity.
  - cbn [tm_use join uval] in G. rewrite IH1 by (intros i v E U; apply (G i v E); now rewrite U). rewrite IH2 by (intros i v E U; apply (G i v E); now rewrite U, orb_true_r). reflexivity.
  - cbn [tm_use join uval] in G. rewrite IH0 by (intros i v E U; apply (G i v E); now rewrite U). rewrite IH1 by (intros i v E U; apply (G i v E); rewrite U; apply orb_true_r). rewrite IH2 by (intros i v E U; apply (G i v E); rewrite U, orb_true_r; apply orb_true_r). reflexivity.
Qed.
Lemma vals_true s f t i v : vals_ground s f t = Ret true -> uval (tm_use i t) = true -> nth_error f i = Some (AV v) -> is_ground (s v) = true.
Proof.
  clear. intros G U E. revert G U. assert (bin : forall x y b, bind x (fun x => bind y (fun y => Ret (x && y))) = Ret b -> b = true -> x = Ret true /\ y = Ret true).
  { intros [[]| |] [[]| |] b; cbn; intros Q R; try discriminate; subst; try discriminate; auto. }
  induction t as [z|j|j|j|j|t IH1 u IH2|t IH1 u IH2|t IH1 u IH2|t IH1 u IH2|t IH1 u IH2|c IH0 t IH1 u IH2]; cbn [vals_ground tm_use]; intros G U; try discriminate.
  - destruct (Nat.eqb_spec i j); discriminate.
  - destruct (Nat.eqb_spec i j); discriminate.
  - destruct (Nat.eqb_spec i j) as [<-|]; [|discriminate]. unfold the_var in G. rewrite E in G. cbn in G. congruence.
  - apply bin in G; [|reflexivity]. destruct G as [G1 G2]. cbn in U. apply orb_true_iff in U. destruct U; auto.
  - apply bin in G; [|reflexivity]. destruct G as [G1 G2]. cbn in U. apply orb_true_iff in U. destruct U; auto.
  - apply bin in G; [|reflexivity]. destruct G as [G1 G2]. cbn in U. apply orb_true_iff in U. destruct U; auto.
  - apply bin in G; [|reflexivity]. destruct G as [G1 G2]. cbn in U. apply orb_true_iff in U. destruct U; auto.
  - apply bin in G; [|reflexivity]. destruct G as [G1 G2]. cbn in U. apply orb_true_iff in U. destruct U; auto.
  - destruct (vals_ground s f c) as [[]| |], (vals_ground s f t) as [[]| |], (vals_ground s f u) as [[]| |]; cbn in G; try discriminate. cbn in U. apply orb_true_iff in U. destruct U as [U|U]; [auto|]. apply orb_true_iff in U. destruct U; auto.
Qed.
Definition same_tell (o o' : outcome (option tellk)) : Prop :=
  match o, o' with
  | Ret None, Ret None => True
  | Ret (Some k), Ret (Some k') => forall n, in_tell k n <-> in_tell k' n
  | UB, UB => True
  | NoFuel, NoFuel => True
  | _, _ => False
  end.
Lemma same_tell_refl o : same_tell o o.
Proof. destruct o as [[k|]| |]; cbn; tauto. Qed.
Lemma chain_agree u c x y : cvar sz x -> cvar sz y -> dep_chain u = Some c -> same_aspect c x y ->
  (uval u = true -> tagv x = tagv y) /\ (uval u = false -> agree u x y /\ (udom u = true -> forall n, dom x n <-> dom y n)).
Proof.
  intros Cx Cy D S. unfold dep_chain in D. unfold agree. destruct (uval u) eqn:U; [injection D as <-; split; [auto|discriminate]|]. split; [discriminate|]. intros _.
  destruct (udom u) eqn:Ud.
  - injection D as <-. cbn in S. assert (Em : rmin (frange x) = rmin (frange y) /\ rmax (frange x) = rmax (frange y)).
    { destruct (cvar_ends x Cx) as [E1 E2], (cvar_ends y Cy) as [F1 F2]. apply S in E1, E2. apply S in F1, F2. destruct E1 as [E1 _], E2 as [E2 _], F1 as [F1 _], F2 as [F2 _]. lia. }
    split; [split; [tauto|split; [tauto|discriminate]]|auto].
  - destruct (umin u), (umax u); injection D as <- || discriminate D; cbn in S; (split; [split; [intros; try discriminate; tauto|split; intros; try discriminate; tauto]|discriminate]).
Qed.
Lemma dep_in n b i : (i < n)%nat -> forall c, dep_chain (rg_use i (brange b)) = Some c -> In (i, c) (block_deps n b).
Proof. clear. intros L c D. unfold block_deps. apply in_flat_map. exists i. split; [apply in_seq; lia|]. rewrite D. now left. Qed.
Lemma block_deps_lt n b i c : In (i, c) (block_deps n b) -> (i < n)%nat /\ (c < 5)%nat.
Proof.
  clear. intros I. unfold block_deps in I. apply in_flat_map in I. destruct I as [j [I1 I2]]. apply in_seq in I1. destruct (dep_chain _) as [c'|] eqn:E; [|destruct I2]. destruct I2 as [I2|[]]. injection I2 as -> ->. split; [lia|].
  unfold dep_chain, CHAIN_NB_VAL, CHAIN_NB_DOM, CHAIN_NB_MIN, CHAIN_NB_MAX, CHAIN_NB_MIN_MAX in E. repeat match type of E with context [if ?x then _ else _] => destruct x end; injection E as <- || discriminate E; lia.
Qed.
Lemma used_agree s s' f b i v : cvars sz s -> cvars sz s' -> reads s s' f b -> nth_error f i = Some (AV v) ->
  (uval (rg_use i (brange b)) = true -> tagv (s v) = tagv (s' v)) /\ (uval (rg_use i (brange b)) = false -> agree (rg_use i (brange b)) (s v) (s' v) /\ (udom (rg_use i (brange b)) = true -> forall n, dom (s v) n <-> dom (s' v) n)).
Proof.
  intros Cs Cs' R E. assert (L : (i < length f)%nat) by (apply nth_error_Some; congruence). destruct (dep_chain (rg_use i (brange b))) as [c|] eqn:D.
  - apply (chain_agree _ c); auto. apply (R i c v); [now apply dep_in|exact E].
  - unfold dep_chain in D. unfold agree. destruct (uval _); [discriminate|]. split; [discriminate|]. intros _. destruct (udom _); [discriminate|]. destruct (umin _), (umax _); try discriminate. split; [split; [discriminate|split; discriminate]|discriminate].
Qed.
Lemma tag_ends x y : cvar sz x -> cvar sz y -> tagv x = tagv y -> is_ground x = true -> rmin (frange x) = rmin (frange y) /\ rmax (frange x) = rmax (frange y).
Proof.
  intros [Ox _] [Oy _] T G. unfold is_ground in G. unfold fdv_ok in Ox, Oy. rewrite <- T in Oy. destruct (tagv x); [|discriminate]. destruct Ox as [_ [-> [-> _]]], Oy as [_ [-> [-> _]]]. auto.
Qed.
(** the same tell in two stores that agree on what the block depends on *)
Lemma beval_same s s' f b : cvars sz s -> cvars sz s' -> reads s s' f b -> same_tell (beval s f (brange b)) (beval s' f (brange b)).
Proof.
  intros Cs Cs' R. pose proof (fun i v => used_agree s s' f b i v Cs Cs' R) as U. clear R.
  (* a term whose uses are among those of the block, once its values are bound *)
  assert (T : forall t, (forall i, exists w, rg_use i (brange b) = join w (tm_use i t) \/ rg_use i (brange b) = join (tm_use i t) w \/ rg_use i (brange b) = tm_use i t) ->
     vals_ground s f t = vals_ground s' f t /\ (forall i v, nth_error f i = Some (AV v) -> (uval (rg_use i (brange b)) = true -> is_ground (s v) = true) -> True) /\
     ((forall i v, nth_error f i = Some (AV v) -> uval (rg_use i (brange b)) = true -> is_ground (s v) = true) -> eval s f t = eval s' f t)).
  { intros t I. split; [|split; [auto|]].
    - apply vals_same. intros i v E Ut. apply (U i v E). destruct (I i) as [w [-> |[-> | ->]]]; cbn; rewrite ?Ut, ?orb_true_r; reflexivity.
    - intros G. apply eval_same. intros i v E. destruct (uval (rg_use i (brange b))) eqn:Uv.
      + destruct (tag_ends (s v) (s' v) (Cs v) (Cs' v) (proj1 (U i v E) Uv) (G i v E Uv)) as [E1 E2]. unfold agree. auto.
      + destruct (proj2 (U i v E) Uv) as [Ag _]. destruct (I i) as [w [Q|[Q|Q]]]; rewrite Q in Ag; [eapply join_r; eauto|eapply join_l; eauto|exact Ag]. }
  destruct (brange b) as [t u|t|t|j] eqn:Eb; cbn [beval rg_use] in *.
  - destruct (T t) as [T1 [_ T3]]; [intros i; exists (tm_use i u); auto|]. destruct (T u) as [U1 [_ U3]]; [intros i; exists (tm_use i t); auto|].
    rewrite <- T1, <- U1. destruct (vals_ground s f t) as [g| |] eqn:G1; cbn [bind]; try exact I. destruct (vals_ground s f u) as [h| |] eqn:G2; cbn [bind]; try exact I.
    destruct g, h; cbn [andb]; try exact I. rewrite <- T3, <- U3; [apply same_tell_refl|..]; intros i v E Uv; cbn [join uval] in Uv; apply orb_true_iff in Uv; (destruct Uv as [Uv|Uv]; [exact (vals_true s f t i v G1 Uv E)|exact (vals_true s f u i v G2 Uv E)]).
  - unfold one. destruct (T t) as [T1 [_ T3]]; [intros i; exists no_use; auto|]. rewrite <- T1. destruct (vals_ground s f t) as [g| |] eqn:G1; cbn [bind]; try exact I. destruct g; [|exact I]. rewrite <- T3; [apply same_tell_refl|]. intros i v E Uv. exact (vals_true s f t i v G1 Uv E).
  - unfold one. destruct (T t) as [T1 [_ T3]]; [intros i; exists no_use; auto|]. rewrite <- T1. destruct (vals_ground s f t) as [g| |] eqn:G1; cbn [bind]; try exact I. destruct g; [|exact I]. rewrite <- T3; [apply same_tell_refl|]. intros i v E Uv. exact (vals_true s f t i v G1 Uv E).
  - unfold the_var. destruct (nth_error f j) as [[v|]|] eqn:E; cbn [bind]; try exact I. cbn [same_tell in_tell]. specialize (U j v E). rewrite Nat.eqb_refl in U. cbn in U. now apply U.
Qed.
End P.
