(** C62: proofs. *)
Require Import List Bool Arith Lia.
Require Import Verif.Dcg_Model Verif.Dcg_Spec.
Import ListNotations.

(** * Equations asked for by Pl_Unify *)
Definition eqn : Type := (nat * list nat * nat)%type.
Definition lhs (q : eqn) : nat := fst (fst q).
Definition rhs (q : eqn) : nat := snd q.
Definition sate {W : Type} (J : interp W) (e : list eqn) (r : nat -> W) : Prop := forall a ts b, In (a, ts, b) e -> r a = consn J ts (r b).
Lemma consn_app : forall (W : Type) (J : interp W) p q x, consn J (p ++ q) x = consn J p (consn J q x).
Proof. intros. unfold consn. apply fold_right_app. Qed.
Lemma sate_app : forall (W : Type) (J : interp W) e1 e2 r, sate J (e1 ++ e2) r <-> sate J e1 r /\ sate J e2 r.
Proof.
  intros. split.
  - intros H. split; intros a ts b Hin; apply H; apply in_app_iff; auto.
  - intros (H1 & H2) a ts b Hin. apply in_app_iff in Hin. destruct Hin; auto.
Qed.
Lemma sate_nil : forall (W : Type) (J : interp W) r, sate J [] r.
Proof. intros W J r a ts b []. Qed.
Lemma sate_one : forall (W : Type) (J : interp W) a ts b r, sate J [(a, ts, b)] r <-> r a = consn J ts (r b).
Proof. intros. split; [intros H; apply H; left; reflexivity|]. intros H a' ts' b' [Q|[]]. injection Q as <- <- <-. exact H. Qed.

Lemma res_app : forall l1 l2 a, res (l1 ++ l2) a = let (p, v) := res l1 a in (p ++ fst (res l2 v), snd (res l2 v)).
Proof.
  assert (G : forall l p v, fold_left (fun (pv : list nat * nat) (x : bnd) => if snd pv =? fst x then (fst pv ++ fst (snd x), snd (snd x)) else pv) l (p, v) = (p ++ fst (res l v), snd (res l v))).
  { unfold res. intros l. induction l as [|(x, (ts, w)) l IH]; intros p v; cbn [fold_left fst snd]; [rewrite app_nil_r; reflexivity|].
    destruct (v =? x); [|apply IH]. rewrite IH, (IH ([] ++ ts) w). cbn. rewrite app_assoc. reflexivity. }
  intros l1 l2 a. unfold res at 1. rewrite fold_left_app. fold (res l1 a). destruct (res l1 a) as (p, v). apply G.
Qed.
Lemma res_cons : forall x l a, res (x :: l) a = if a =? fst x then (fst (snd x) ++ fst (res l (snd (snd x))), snd (res l (snd (snd x)))) else res l a.
Proof. intros (y, (ts, w)) l a. change ((y, (ts, w)) :: l) with ([(y, (ts, w))] ++ l). rewrite res_app. unfold res at 1. cbn. destruct (a =? y); cbn; [reflexivity|]. destruct (res l a); reflexivity. Qed.
Lemma res_sat : forall (W : Type) (J : interp W) r l a, sat J l r -> r a = consn J (fst (res l a)) (r (snd (res l a))).
Proof.
  intros W J r. induction l as [|(x, (ts, w)) l IH]; intros a H; [reflexivity|]. rewrite res_cons. cbn [fst snd].
  assert (H1 : sat J l r) by (intros y ts' w' Hin; apply H; right; exact Hin).
  destruct (Nat.eqb_spec a x) as [EQ|N]; [|apply IH; exact H1]. subst x. cbn [fst snd]. rewrite consn_app, <- (IH w H1). apply H. left. reflexivity.
Qed.
Lemma sat_snoc : forall (W : Type) (J : interp W) l x ts w r, sat J (l ++ [(x, (ts, w))]) r <-> sat J l r /\ r x = consn J ts (r w).
Proof.
  intros. split.
  - intros H. split; [intros y ts' w' Hin|]; apply H; apply in_app_iff; auto. right. left. reflexivity.
  - intros (H1 & H2) y ts' w' Hin. apply in_app_iff in Hin. destruct Hin as [Hin|[Q|[]]]; [auto|]. injection Q as <- <- <-. exact H2.
Qed.

(** the two variables may have any values *)
Definition Ind (l : list bnd) (a b : nat) : Prop := forall (W : Type) (J : interp W) x y, exists r, sat J l r /\ r a = x /\ r b = y.
Definition JL : interp (list nat) := Interp _ cons (fun _ _ _ => True) (fun _ _ _ => True) (fun _ => True).
Lemma consn_JL : forall p x, consn JL p x = p ++ x.
Proof. induction p as [|t p IH]; intros x; [reflexivity|]. cbn. f_equal. apply IH. Qed.
Lemma ind_res : forall l a b, Ind l a b -> fst (res l a) = [] /\ fst (res l b) = [] /\ snd (res l a) <> snd (res l b).
Proof.
  intros l a b H.
  assert (Q : forall c, (exists r, sat JL l r /\ r c = []) -> fst (res l c) = []).
  { intros c (r & S1 & E). rewrite (res_sat _ JL r l c S1), consn_JL in E. apply app_eq_nil in E. apply E. }
  assert (Qa : fst (res l a) = []) by (apply Q; destruct (H _ JL [] []) as (r & R1 & R2 & R3); eauto).
  assert (Qb : fst (res l b) = []) by (apply Q; destruct (H _ JL [] []) as (r & R1 & R2 & R3); eauto).
  split; [exact Qa|]. split; [exact Qb|]. intros E. destruct (H _ JL [] [0]) as (r & R1 & R2 & R3). pose proof (res_sat _ JL r l a R1) as X. pose proof (res_sat _ JL r l b R1) as Y.
  rewrite Qa in X. rewrite Qb in Y. cbn in X, Y. rewrite E in X. congruence.
Qed.
Definition below (n : nat) (l : list bnd) : Prop := forall x ts w, In (x, (ts, w)) l -> x < n /\ w < n.
Lemma res_below : forall l n a, below n l -> a < n -> snd (res l a) < n.
Proof.
  induction l as [|(x, (ts, w)) l IH]; intros n a H L; [exact L|]. rewrite res_cons. cbn [fst snd]. assert (H1 : below n l) by (intros y ts' w' Hin; apply (H y ts' w'); right; exact Hin).
  destruct (a =? x); [|apply IH; auto]. cbn [snd]. apply IH; auto. apply (H x ts w). left. reflexivity.
Qed.
Lemma below_mono : forall n m l, below n l -> n <= m -> below m l.
Proof. intros n m l H L x ts w Hin. destruct (H x ts w Hin). lia. Qed.
(** the relation between the bindings before, those after and the equations *)
Definition adds (l l' : list bnd) (e : list eqn) : Prop := forall (W : Type) (J : interp W) r, sat J l' r <-> sat J l r /\ sate J e r.
Lemma adds_nil : forall l, adds l l [].
Proof. intros l W J r. split; [intros H; split; [exact H|apply sate_nil]|intros H; apply H]. Qed.
Lemma adds_app : forall l1 l2 l3 e1 e2, adds l1 l2 e1 -> adds l2 l3 e2 -> adds l1 l3 (e1 ++ e2).
Proof. intros l1 l2 l3 e1 e2 H1 H2 W J r. rewrite (H2 W J r), (H1 W J r), sate_app. tauto. Qed.
Lemma unify_ok : forall a ts b s, Ind (bl s) a b -> a < nx s -> b < nx s -> below (nx s) (bl s) ->
  exists s' m, unify a ts b s = Ok s' /\ nx s' = nx s /\ fl s' = fl s /\ bl s' = bl s ++ [m] /\ adds (bl s) (bl s') [(a, ts, b)] /\ below (nx s) (bl s') /\
    (ts = [] -> res (bl s') a = res (bl s') b).
Proof.
  intros a ts b s H La Lb B. unfold unify, add_eq. destruct (ind_res _ _ _ H) as (E1 & E2 & N).
  pose proof (res_below _ _ _ B La) as Ra. pose proof (res_below _ _ _ B Lb) as Rb.
  assert (XA : forall (W : Type) (J : interp W) r, sat J (bl s) r -> r a = r (snd (res (bl s) a))) by (intros W J r Hs; rewrite (res_sat _ J r _ a Hs) at 1; rewrite E1; reflexivity).
  assert (XB : forall (W : Type) (J : interp W) r, sat J (bl s) r -> r b = r (snd (res (bl s) b))) by (intros W J r Hs; rewrite (res_sat _ J r _ b Hs) at 1; rewrite E2; reflexivity).
  assert (RA : forall m, res (bl s ++ [m]) a = res [m] (snd (res (bl s) a))) by (intros m; rewrite res_app; destruct (res (bl s) a) as (p, v); cbn [fst] in E1; subst p; cbn [app snd]; symmetry; apply surjective_pairing).
  assert (RB : forall m, res (bl s ++ [m]) b = res [m] (snd (res (bl s) b))) by (intros m; rewrite res_app; destruct (res (bl s) b) as (p, v); cbn [fst] in E2; subst p; cbn [app snd]; symmetry; apply surjective_pairing).
  destruct (res (bl s) a) as (p, v) eqn:Ea. destruct (res (bl s) b) as (q, w) eqn:Eb. cbn [fst snd] in *. subst p q. rewrite app_nil_r. apply Nat.eqb_neq in N.
  destruct ts as [|t ts].
  - rewrite N. do 2 eexists. split; [reflexivity|]. cbn [nx fl bl]. split; [reflexivity|]. split; [reflexivity|]. split; [reflexivity|]. split; [|split].
    + intros W J r. rewrite sat_snoc, sate_one. cbn [consn fold_right]. split; intros (H1 & H2); (split; [exact H1|]); rewrite (XA _ J _ H1), (XB _ J _ H1) in *; destruct (Nat.max_spec v w) as [(Q1 & Q2)|(Q1 & Q2)]; rewrite Q2 in *; [rewrite (Nat.min_l v w) in * by lia|rewrite (Nat.min_r v w) in * by lia|rewrite (Nat.min_l v w) in * by lia|rewrite (Nat.min_r v w) in * by lia]; congruence.
    + intros x ts w' Hin. apply in_app_iff in Hin. destruct Hin as [Hin|[Q|[]]]; [apply (B x ts w' Hin)|]. injection Q as <- <- <-. lia.
    + intros _. rewrite RA, RB, !res_cons. cbn [fst snd]. apply Nat.eqb_neq in N. destruct (Nat.eqb_spec v (max v w)) as [Q|Q]; destruct (Nat.eqb_spec w (max v w)) as [Q'|Q']; try lia; cbn; f_equal; lia.
  - rewrite N. do 2 eexists. split; [reflexivity|]. cbn [nx fl bl]. split; [reflexivity|]. split; [reflexivity|]. split; [reflexivity|]. split; [|split].
    + intros W J r. rewrite sat_snoc, sate_one. split; intros (H1 & H2); (split; [exact H1|]); rewrite (XA _ J _ H1), (XB _ J _ H1) in *; exact H2.
    + intros x ts' w' Hin. apply in_app_iff in Hin. destruct Hin as [Hin|[Q|[]]]; [apply (B x ts' w' Hin)|]. injection Q as <- <- <-. lia.
    + discriminate.
Qed.
Lemma res_eq_app : forall l m a b, res l a = res l b -> res (l ++ m) a = res (l ++ m) b.
Proof. intros l m a b E. rewrite !res_app, E. reflexivity. Qed.

(** * Assignments *)
Definition upd {W : Type} (r : nat -> W) (v : nat) (x : W) : nat -> W := fun z => if z =? v then x else r z.
Lemma upd_eq : forall (W : Type) (r : nat -> W) v x, upd r v x v = x.
Proof. intros. unfold upd. rewrite Nat.eqb_refl. reflexivity. Qed.
Lemma upd_neq : forall (W : Type) (r : nat -> W) v x z, z <> v -> upd r v x z = r z.
Proof. intros W r v x z H. unfold upd. destruct (Nat.eqb_spec z v); [contradiction|reflexivity]. Qed.
Lemma outside_refl : forall (W : Type) lo hi (r : nat -> W), outside lo hi r r.
Proof. intros W lo hi r v _. reflexivity. Qed.
Lemma outside_trans : forall (W : Type) lo hi (r1 r2 r3 : nat -> W), outside lo hi r1 r2 -> outside lo hi r2 r3 -> outside lo hi r1 r3.
Proof. intros W lo hi r1 r2 r3 H1 H2 v Hv. rewrite (H2 v Hv). apply H1. exact Hv. Qed.
Lemma outside_mono : forall (W : Type) lo hi lo' hi' (r1 r2 : nat -> W), outside lo hi r1 r2 -> lo' <= lo -> hi <= hi' -> outside lo' hi' r1 r2.
Proof. intros W lo hi lo' hi' r1 r2 H L1 L2 v Hv. apply H. lia. Qed.
Lemma outside_upd : forall (W : Type) lo hi (r : nat -> W) v x, lo <= v < hi -> outside lo hi r (upd r v x).
Proof. intros W lo hi r v x L z Hz. apply upd_neq. lia. Qed.
Definition stable {W : Type} (lo hi : nat) (R : (nat -> W) -> Prop) : Prop := forall r r', outside lo hi r r' -> R r -> R r'.
Lemma sat_stable : forall (W : Type) (J : interp W) l n hi, below n l -> stable n hi (sat J l).
Proof. intros W J l n hi B r r' O H x ts w Hin. destruct (B x ts w Hin). rewrite (O x), (O w) by lia. apply H. exact Hin. Qed.
Definition loc (a b n n' : nat) (v : nat) : Prop := v = a \/ v = b \/ n <= v < n'.
Definition eloc (a b n n' : nat) (e : list eqn) : Prop := forall x ts y, In (x, ts, y) e -> loc a b n n' x /\ loc a b n n' y.
Lemma sate_ext : forall (W : Type) (J : interp W) a b n n' e (r r' : nat -> W), eloc a b n n' e -> (forall v, loc a b n n' v -> r' v = r v) -> sate J e r -> sate J e r'.
Proof. intros W J a b n n' e r r' L E H x ts y Hin. destruct (L x ts y Hin) as (L1 & L2). rewrite (E x L1), (E y L2). apply H. exact Hin. Qed.
Lemma sate_stable : forall (W : Type) (J : interp W) a b n n' lo hi e, eloc a b n n' e -> (a < lo \/ hi <= a) -> (b < lo \/ hi <= b) -> n' <= lo \/ hi <= n -> stable lo hi (sate J e).
Proof. intros W J a b n n' lo hi e L Ha Hb Hn r r' O H. apply (sate_ext W J a b n n' e r r' L); [|exact H]. intros v [->|[->|Hv]]; apply O; lia. Qed.
Lemma eloc_app : forall a b n n' e1 e2, eloc a b n n' e1 -> eloc a b n n' e2 -> eloc a b n n' (e1 ++ e2).
Proof. intros a b n n' e1 e2 H1 H2 x ts y Hin. apply in_app_iff in Hin. destruct Hin; eauto. Qed.
Lemma eloc_sub : forall a b n n' a' b' m m' e, eloc a b n n' e -> loc a' b' m m' a -> loc a' b' m m' b -> m <= n -> n' <= m' -> eloc a' b' m m' e.
Proof. intros a b n n' a' b' m m' e H La Lb L1 L2 x ts y Hin. destruct (H x ts y Hin) as (Q1 & Q2). split; [destruct Q1 as [->|[->|Q1]]|destruct Q2 as [->|[->|Q2]]]; auto; right; right; lia. Qed.

(** * A piece of the translation *)
Definition sem : Type := forall W : Type, interp W -> W -> W -> Prop.
Definition all {W : Type} (J : interp W) (F : (nat -> W) -> Prop) (gs : list goal) (r : nat -> W) : Prop := Forall (fun g => holds J F g r) gs.
Lemma all_conj : forall (W : Type) (J : interp W) F gs r, holds J F (conj gs) r <-> all J F gs r.
Proof.
  intros W J F. induction gs as [|g gs IH]; intros r; [split; [constructor|constructor]|]. destruct gs as [|g' gs].
  - cbn [conj]. split; [intros H; constructor; [exact H|constructor]|intros H; inversion H; assumption].
  - change (conj (g :: g' :: gs)) with (GAnd g (conj (g' :: gs))). cbn [holds]. rewrite IH. split; [intros (H1 & H2); constructor; assumption|intros H; inversion H; auto].
Qed.
Record Piece (sp : sem) (id k : bool) (a b : nat) (f f' : bool) (n n' : nat) (e : list eqn) (gs : list goal) : Prop := {
  p_n : n <= n';
  p_f : f = false -> f' = true -> id = false;
  p_loc : eloc a b n n' e;
  p_EF : f = false -> forall (W : Type) (J : interp W) r, (id = true -> r a = r b) -> exists r', outside n n' r r' /\ sate J e r';
  p_ET : forall (W : Type) (J : interp W) y, exists z, forall r, r a = z -> r b = y -> exists r', outside n n' r r' /\ sate J e r';
  p_S : k = true -> forall (W : Type) (J : interp W) (F R : (nat -> W) -> Prop), (forall r, F r <-> R r /\ sate J e r) -> stable n n' R ->
        forall r, F r -> all J F gs r -> sp W J (r a) (r b);
  p_C : k = true -> forall (W : Type) (J : interp W) (F R : (nat -> W) -> Prop), (forall r, F r <-> R r /\ sate J e r) -> stable n n' R ->
        forall r, sp W J (r a) (r b) ->
        exists r', outside n n' r r' /\ sate J e r' /\ forall r2, F r2 -> (forall v, loc a b n n' v -> r2 v = r' v) -> all J F gs r2 }.

(** pieces without new variables *)
Lemma piece_eq : forall (sp : sem) k a ts b f n gs,
  (forall W J F r, r a = consn J ts (r b) -> all J F gs r -> sp W J (r a) (r b)) ->
  (forall W J F r, sp W J (r a) (r b) -> r a = consn J ts (r b) /\ all J F gs r) ->
  (f = false -> ts = []) -> Piece sp (match ts with [] => true | _ => false end) k a b f f n n [(a, ts, b)] gs.
Proof.
  intros sp k a ts b f n gs H1 H2 Hf. constructor.
  - lia.
  - intros -> Q; discriminate Q.
  - intros x ts' y [Q|[]]. injection Q as <- <- <-. split; [left; reflexivity|right; left; reflexivity].
  - intros Q W J r Hr. exists r. split; [apply outside_refl|]. apply sate_one. rewrite (Hf Q) in *. apply Hr. reflexivity.
  - intros W J y. exists (consn J ts y). intros r Ea Eb. exists r. split; [apply outside_refl|]. apply sate_one. congruence.
  - intros _ W J F R HF _ r Fr Hall. apply (H1 W J F); [|exact Hall]. apply HF in Fr. destruct Fr as (_ & Q). apply sate_one in Q. exact Q.
  - intros _ W J F R HF _ r Hs. exists r. split; [apply outside_refl|]. split; [apply sate_one; apply (H2 W J F r Hs)|].
    intros r2 F2 E. apply (H2 W J F r2). rewrite (E a), (E b) by (unfold loc; auto). exact Hs.
Qed.
Lemma piece_goals : forall (sp : sem) k a b f f' n gs,
  (forall W J F r, all J F gs r <-> sp W J (r a) (r b)) -> Piece sp false k a b f f' n n [] gs.
Proof.
  intros sp k a b f f' n gs H1. constructor.
  - lia.
  - reflexivity.
  - intros x ts' y [].
  - intros Q W J r Hr. exists r. split; [apply outside_refl|apply sate_nil].
  - intros W J y. exists y. intros r Ea Eb. exists r. split; [apply outside_refl|apply sate_nil].
  - intros _ W J F R HF _ r Fr Hall. apply (H1 W J F r). exact Hall.
  - intros _ W J F R HF _ r Hs. exists r. split; [apply outside_refl|]. split; [apply sate_nil|].
    intros r2 F2 E. apply (H1 W J F r2). rewrite (E a), (E b) by (unfold loc; auto). exact Hs.
Qed.

Lemma piece_comma : forall (spA spB : sem) idA idB kA kB a b f f1 f2 n n1 n2 eA eB gA gB, a < n -> b < n ->
  Piece spA idA kA a n f f1 (S n) n1 eA gA -> Piece spB idB kB n b f1 f2 n1 n2 eB gB ->
  Piece (fun W J x y => exists z, spA W J x z /\ spB W J z y) (idA && idB) (kA && kB) a b f f2 n n2 (eA ++ eB) (gA ++ gB).
Proof.
  intros spA spB idA idB kA kB a b f f1 f2 n n1 n2 eA eB gA gB La Lb PA PB. pose proof (p_n _ _ _ _ _ _ _ _ _ _ _ PA) as N1. pose proof (p_n _ _ _ _ _ _ _ _ _ _ _ PB) as N2.
  assert (STA : forall (W : Type) (J : interp W), stable n1 n2 (sate J eA)) by (intros W J; apply (sate_stable W J a n (S n) n1); [apply (p_loc _ _ _ _ _ _ _ _ _ _ _ PA)|lia|lia|lia]).
  assert (STB : forall (W : Type) (J : interp W), stable (S n) n1 (sate J eB)) by (intros W J; apply (sate_stable W J n b n1 n2); [apply (p_loc _ _ _ _ _ _ _ _ _ _ _ PB)|lia|lia|lia]).
  assert (BOTH : forall (W : Type) (J : interp W) (r r1 r2 : nat -> W) z, outside n1 n2 (upd r n z) r1 -> sate J eB r1 -> outside (S n) n1 r1 r2 -> sate J eA r2 ->
    outside n n2 r r2 /\ sate J (eA ++ eB) r2).
  { intros W J r r1 r2 z O1 S1 O2 S2. split.
    - apply (outside_trans _ _ _ _ (upd r n z)); [apply outside_upd; lia|]. apply (outside_trans _ _ _ _ r1); [apply (outside_mono _ _ _ _ _ _ _ O1); lia|apply (outside_mono _ _ _ _ _ _ _ O2); lia].
    - apply sate_app. split; [exact S2|]. apply (STB W J r1 r2 O2 S1). }
  assert (HFA : forall (W : Type) (J : interp W) (F R : (nat -> W) -> Prop), (forall r, F r <-> R r /\ sate J (eA ++ eB) r) -> stable n n2 R ->
    (forall r, F r <-> (R r /\ sate J eB r) /\ sate J eA r) /\ stable (S n) n1 (fun r => R r /\ sate J eB r)).
  { intros W J F R HF SR. split; [intros r; rewrite (HF r), sate_app; tauto|]. intros r r' O (Q1 & Q2). split; [apply (SR r r'); [apply (outside_mono _ _ _ _ _ _ _ O); lia|exact Q1]|apply (STB W J r r' O Q2)]. }
  assert (HFB : forall (W : Type) (J : interp W) (F R : (nat -> W) -> Prop), (forall r, F r <-> R r /\ sate J (eA ++ eB) r) -> stable n n2 R ->
    (forall r, F r <-> (R r /\ sate J eA r) /\ sate J eB r) /\ stable n1 n2 (fun r => R r /\ sate J eA r)).
  { intros W J F R HF SR. split; [intros r; rewrite (HF r), sate_app; tauto|]. intros r r' O (Q1 & Q2). split; [apply (SR r r'); [apply (outside_mono _ _ _ _ _ _ _ O); lia|exact Q1]|apply (STA W J r r' O Q2)]. }
  constructor.
  - lia.
  - intros Hf Hf2. destruct f1.
    + rewrite (p_f _ _ _ _ _ _ _ _ _ _ _ PA Hf eq_refl). reflexivity.
    + rewrite (p_f _ _ _ _ _ _ _ _ _ _ _ PB eq_refl Hf2). apply andb_false_r.
  - apply eloc_app.
    + apply (eloc_sub _ _ _ _ a b n n2 _ (p_loc _ _ _ _ _ _ _ _ _ _ _ PA)); unfold loc; auto; lia.
    + apply (eloc_sub _ _ _ _ a b n n2 _ (p_loc _ _ _ _ _ _ _ _ _ _ _ PB)); unfold loc; auto; lia.
  - intros Hf W J r Hid. destruct f1.
    + pose proof (p_f _ _ _ _ _ _ _ _ _ _ _ PA Hf eq_refl) as IA. destruct (p_ET _ _ _ _ _ _ _ _ _ _ _ PB W J (r b)) as (z & HB).
      destruct (HB (upd r n z)) as (r1 & O1 & S1); [apply upd_eq|apply upd_neq; lia|].
      destruct (p_EF _ _ _ _ _ _ _ _ _ _ _ PA Hf W J r1) as (r2 & O2 & S2); [congruence|]. exists r2. apply (BOTH W J r r1 r2 z); assumption.
    + set (z := if idA then r a else r b).
      destruct (p_EF _ _ _ _ _ _ _ _ _ _ _ PB eq_refl W J (upd r n z)) as (r1 & O1 & S1).
      { intros IB. rewrite upd_eq, upd_neq by lia. unfold z. destruct idA; [apply Hid; rewrite IB; reflexivity|reflexivity]. }
      destruct (p_EF _ _ _ _ _ _ _ _ _ _ _ PA Hf W J r1) as (r2 & O2 & S2).
      { intros IA. rewrite (O1 a), (O1 n), upd_eq, upd_neq by lia. unfold z. rewrite IA. reflexivity. }
      exists r2. apply (BOTH W J r r1 r2 z); assumption.
  - intros W J y. destruct (p_ET _ _ _ _ _ _ _ _ _ _ _ PB W J y) as (z1 & HB). destruct (p_ET _ _ _ _ _ _ _ _ _ _ _ PA W J z1) as (z & HA). exists z. intros r Ea Eb.
    destruct (HB (upd r n z1)) as (r1 & O1 & S1); [apply upd_eq|rewrite upd_neq by lia; exact Eb|].
    destruct (HA r1) as (r2 & O2 & S2); [rewrite (O1 a), upd_neq by lia; exact Ea|rewrite (O1 n), upd_eq by lia; reflexivity|]. exists r2. apply (BOTH W J r r1 r2 z1); assumption.
  - intros Hk W J F R HF SR r Fr Hall. apply andb_true_iff in Hk. destruct Hk as (KA & KB). apply Forall_app in Hall. destruct Hall as (H1 & H2).
    destruct (HFA W J F R HF SR) as (A1 & A2). destruct (HFB W J F R HF SR) as (B1 & B2). exists (r n). split.
    + apply (p_S _ _ _ _ _ _ _ _ _ _ _ PA KA W J F _ A1 A2 r Fr H1).
    + apply (p_S _ _ _ _ _ _ _ _ _ _ _ PB KB W J F _ B1 B2 r Fr H2).
  - intros Hk W J F R HF SR r (z & HA & HB). apply andb_true_iff in Hk. destruct Hk as (KA & KB).
    destruct (HFA W J F R HF SR) as (A1 & A2). destruct (HFB W J F R HF SR) as (B1 & B2).
    destruct (p_C _ _ _ _ _ _ _ _ _ _ _ PB KB W J F _ B1 B2 (upd r n z)) as (r1 & O1 & S1 & C1); [rewrite upd_eq, upd_neq by lia; exact HB|].
    destruct (p_C _ _ _ _ _ _ _ _ _ _ _ PA KA W J F _ A1 A2 r1) as (r2 & O2 & S2 & C2); [rewrite (O1 a), (O1 n), upd_eq, upd_neq by lia; exact HA|].
    destruct (BOTH W J r r1 r2 z O1 S1 O2 S2) as (X1 & X2). exists r2. split; [exact X1|]. split; [exact X2|]. intros r3 F3 E. apply Forall_app. split.
    + apply C2; [exact F3|]. intros v Hv. apply E. unfold loc in *. lia.
    + apply C1; [exact F3|]. intros v Hv. rewrite E by (unfold loc in *; lia). apply O2. unfold loc in Hv. lia.
Qed.
(** in_is_out after goals which do not depend on the out list *)
Lemma piece_test : forall (spA : sem) idA k a b f1 n n1 eA gA opt, a < n -> b < n ->
  Piece spA idA k a n false f1 (S n) n1 eA gA ->
  Piece (fun W J x y => ~ (exists z, spA W J x z) /\ x = y) opt k a b false false n n1 (if opt then eA ++ [(a, [], b)] else eA)
    (if opt then [GNeg n n1 (conj gA)] else [GNeg n n1 (conj gA); GEq a [] b]).
Proof.
  intros spA idA k a b f1 n n1 eA gA opt La Lb PA. pose proof (p_n _ _ _ _ _ _ _ _ _ _ _ PA) as N1.
  assert (STE : forall (W : Type) (J : interp W), stable n n1 (sate J [(a, [], b)])).
  { intros W J r r' O Q. apply sate_one. apply sate_one in Q. rewrite (O a), (O b) by lia. exact Q. }
  assert (NEG : k = true -> forall (W : Type) (J : interp W) (F R : (nat -> W) -> Prop), (forall r, F r <-> R r /\ sate J eA r) -> stable n n1 R -> forall r, F r ->
    (holds J F (GNeg n n1 (conj gA)) r <-> ~ (exists z, spA W J (r a) z))).
  { intros Hk W J F R HF SR r Fr. assert (SR' : stable (S n) n1 R) by (intros r0 r1 O Q; apply (SR r0 r1); [apply (outside_mono _ _ _ _ _ _ _ O); lia|exact Q]). split.
    - intros Hn (z & Hz). apply Hn. destruct (p_C _ _ _ _ _ _ _ _ _ _ _ PA Hk W J F R HF SR' (upd r n z)) as (r1 & O1 & S1 & C1); [rewrite upd_eq, upd_neq by lia; exact Hz|].
      assert (O2 : outside n n1 r r1) by (apply (outside_trans _ _ _ _ (upd r n z)); [apply outside_upd; lia|apply (outside_mono _ _ _ _ _ _ _ O1); lia]).
      assert (F1 : F r1) by (apply HF; split; [apply (SR r r1 O2); apply HF; exact Fr|exact S1]). exists r1. split; [exact O2|]. split; [exact F1|]. apply all_conj. apply C1; auto.
    - intros Hn (r1 & O1 & F1 & H1). apply all_conj in H1. apply Hn. exists (r1 n). rewrite <- (O1 a) by lia. apply (p_S _ _ _ _ _ _ _ _ _ _ _ PA Hk W J F R HF SR' r1 F1 H1). }
  assert (EXT : forall (W : Type) (J : interp W) (r : nat -> W), exists r', outside n n1 r r' /\ sate J eA r').
  { intros W J r. destruct (p_EF _ _ _ _ _ _ _ _ _ _ _ PA eq_refl W J (upd r n (r a))) as (r1 & O1 & S1); [intros _; rewrite upd_eq, upd_neq by lia; reflexivity|].
    exists r1. split; [apply (outside_trans _ _ _ _ (upd r n (r a))); [apply outside_upd; lia|apply (outside_mono _ _ _ _ _ _ _ O1); lia]|exact S1]. }
  assert (LA : eloc a b n n1 eA) by (apply (eloc_sub _ _ _ _ a b n n1 _ (p_loc _ _ _ _ _ _ _ _ _ _ _ PA)); unfold loc; auto; lia).
  assert (EXT' : forall (W : Type) (J : interp W) (r : nat -> W), (opt = true -> r a = r b) -> exists r', outside n n1 r r' /\ sate J (if opt then eA ++ [(a, [], b)] else eA) r').
  { intros W J r Hr. destruct (EXT W J r) as (r1 & O1 & S1). exists r1. split; [exact O1|]. destruct opt; [|exact S1]. apply sate_app. split; [exact S1|]. apply sate_one. rewrite (O1 a), (O1 b) by lia. auto. }
  assert (HFA : forall (W : Type) (J : interp W) (F R : (nat -> W) -> Prop), (forall r, F r <-> R r /\ sate J (if opt then eA ++ [(a, [], b)] else eA) r) -> stable n n1 R ->
    exists R', (forall r, F r <-> R' r /\ sate J eA r) /\ stable n n1 R' /\ (opt = true -> forall r, F r -> r a = r b)).
  { intros W J F R HF SR. destruct opt.
    - exists (fun r => R r /\ sate J [(a, [], b)] r). split; [intros r; rewrite (HF r), sate_app; tauto|]. split.
      + intros r r' O (Q1 & Q2). split; [apply (SR r r' O Q1)|apply (STE W J r r' O Q2)].
      + intros _ r Fr. apply HF in Fr. destruct Fr as (_ & Q). apply sate_app in Q. destruct Q as (_ & Q). apply sate_one in Q. exact Q.
    - exists R. split; [exact HF|]. split; [exact SR|]. discriminate. }
  constructor.
  - lia.
  - discriminate.
  - destruct opt; [|exact LA]. apply eloc_app; [exact LA|]. intros x ts y [Q|[]]. injection Q as <- <- <-. unfold loc. auto.
  - intros _ W J r Hr. apply EXT'. exact Hr.
  - intros W J y. exists y. intros r Ea Eb. apply EXT'. congruence.
  - intros Hk W J F R HF SR r Fr Hall. destruct (HFA W J F R HF SR) as (R' & A1 & A2 & A3). destruct opt.
    + pose proof (Forall_inv Hall) as G1. split; [apply (NEG Hk W J F R' A1 A2 r Fr); exact G1|]. apply A3; auto.
    + pose proof (Forall_inv Hall) as G1. pose proof (Forall_inv (Forall_inv_tail Hall)) as G3. split; [apply (NEG Hk W J F R' A1 A2 r Fr); exact G1|exact G3].
  - intros Hk W J F R HF SR r (H1 & H2). destruct (HFA W J F R HF SR) as (R' & A1 & A2 & A3). destruct (EXT' W J r) as (r1 & O1 & S1); [auto|]. exists r1. split; [exact O1|]. split; [exact S1|].
    intros r2 F2 E. assert (Ea : r2 a = r a) by (rewrite (E a) by (unfold loc; auto); apply O1; lia). assert (Eb : r2 b = r b) by (rewrite (E b) by (unfold loc; auto); apply O1; lia).
    assert (G : holds J F (GNeg n n1 (conj gA)) r2) by (apply (NEG Hk W J F R' A1 A2 r2 F2); rewrite Ea; exact H1).
    destruct opt; constructor; auto; constructor; [|constructor]. cbn. congruence.
Qed.
Lemma piece_restore : forall sp id k a b f f' n n' e gs, Piece sp id k a b f f' n n' e gs -> Piece sp id k a b f false n n' e gs.
Proof. intros sp id k a b f f' n n' e gs [H1 H2 H3 H4 H5 H6 H7]. constructor; auto. discriminate. Qed.
Lemma piece_ext : forall (sp sp' : sem) id k k' a b f f' n n' e gs gs', Piece sp id k a b f f' n n' e gs -> (k' = true -> k = true) -> (k' = true -> forall W J x y, sp W J x y <-> sp' W J x y) ->
  (forall W J F r, all (W := W) J F gs r <-> all J F gs' r) -> Piece sp' id k' a b f f' n n' e gs'.
Proof.
  intros sp sp' id k k' a b f f' n n' e gs gs' [H1 H2 H3 H4 H5 H6 H7] HK HS HG. constructor; auto.
  - intros Hk W J F R HF SR r Fr Hall. apply (HS Hk). apply (H6 (HK Hk) W J F R HF SR r Fr). apply HG. exact Hall.
  - intros Hk W J F R HF SR r Hs. apply (HS Hk) in Hs. destruct (H7 (HK Hk) W J F R HF SR r Hs) as (r1 & O1 & S1 & C1). exists r1. split; [exact O1|]. split; [exact S1|]. intros r2 F2 E. apply HG. apply C1; auto.
Qed.
(** an alternative *)
Lemma piece_alt : forall (spA : sem) idA k a b f1 n n1 eA gA, a < n -> b < n ->
  Piece spA idA k a n false f1 (S n) n1 eA gA ->
  Piece spA false k a b false false n n1 (if idA then eA else eA ++ [(n, [], b)]) (if idA then GEq n [] b :: gA else gA).
Proof.
  intros spA idA k a b f1 n n1 eA gA La Lb PA. pose proof (p_n _ _ _ _ _ _ _ _ _ _ _ PA) as N1.
  assert (LA : eloc a b n n1 eA) by (apply (eloc_sub _ _ _ _ a b n n1 _ (p_loc _ _ _ _ _ _ _ _ _ _ _ PA)); unfold loc; auto; lia).
  assert (STE : forall (W : Type) (J : interp W), stable (S n) n1 (sate J [(n, [], b)])).
  { intros W J r r' O Q. apply sate_one. apply sate_one in Q. rewrite (O n), (O b) by lia. exact Q. }
  assert (EXT : forall (W : Type) (J : interp W) (r : nat -> W), exists r', outside n n1 r r' /\ sate J (if idA then eA else eA ++ [(n, [], b)]) r').
  { intros W J r. destruct idA.
    - destruct (p_EF _ _ _ _ _ _ _ _ _ _ _ PA eq_refl W J (upd r n (r a))) as (r1 & O1 & S1); [intros _; rewrite upd_eq, upd_neq by lia; reflexivity|].
      exists r1. split; [apply (outside_trans _ _ _ _ (upd r n (r a))); [apply outside_upd; lia|apply (outside_mono _ _ _ _ _ _ _ O1); lia]|exact S1].
    - destruct (p_EF _ _ _ _ _ _ _ _ _ _ _ PA eq_refl W J (upd r n (r b))) as (r1 & O1 & S1); [discriminate|].
      exists r1. split; [apply (outside_trans _ _ _ _ (upd r n (r b))); [apply outside_upd; lia|apply (outside_mono _ _ _ _ _ _ _ O1); lia]|].
      apply sate_app. split; [exact S1|]. apply sate_one. rewrite (O1 n), (O1 b), upd_eq, upd_neq by lia. reflexivity. }
  assert (HFA : forall (W : Type) (J : interp W) (F R : (nat -> W) -> Prop), (forall r, F r <-> R r /\ sate J (if idA then eA else eA ++ [(n, [], b)]) r) -> stable n n1 R ->
    exists R', (forall r, F r <-> R' r /\ sate J eA r) /\ stable (S n) n1 R' /\ (idA = false -> forall r, F r -> r n = r b)).
  { intros W J F R HF SR. assert (SR' : stable (S n) n1 R) by (intros r r' O Q; apply (SR r r'); [apply (outside_mono _ _ _ _ _ _ _ O); lia|exact Q]). destruct idA.
    - exists R. split; [exact HF|]. split; [exact SR'|discriminate].
    - exists (fun r => R r /\ sate J [(n, [], b)] r). split; [intros r; rewrite (HF r), sate_app; tauto|]. split.
      + intros r r' O (Q1 & Q2). split; [apply (SR' r r' O Q1)|apply (STE W J r r' O Q2)].
      + intros _ r Fr. apply HF in Fr. destruct Fr as (_ & Q). apply sate_app in Q. destruct Q as (_ & Q). apply sate_one in Q. exact Q. }
  constructor.
  - lia.
  - discriminate.
  - destruct idA; [exact LA|]. apply eloc_app; [exact LA|]. intros x ts y [Q|[]]. injection Q as <- <- <-. unfold loc. split; [right; right; lia|auto].
  - intros _ W J r _. apply EXT.
  - intros W J y. exists y. intros r _ _. apply EXT.
  - intros Hk W J F R HF SR r Fr Hall. destruct (HFA W J F R HF SR) as (R' & A1 & A2 & A3). destruct idA.
    + pose proof (Forall_inv Hall) as G1. pose proof (Forall_inv_tail Hall) as G2. cbn in G1. rewrite <- G1. apply (p_S _ _ _ _ _ _ _ _ _ _ _ PA Hk W J F R' A1 A2 r Fr G2).
    + rewrite <- (A3 eq_refl r Fr). apply (p_S _ _ _ _ _ _ _ _ _ _ _ PA Hk W J F R' A1 A2 r Fr Hall).
  - intros Hk W J F R HF SR r Hs. destruct (HFA W J F R HF SR) as (R' & A1 & A2 & A3).
    destruct (p_C _ _ _ _ _ _ _ _ _ _ _ PA Hk W J F R' A1 A2 (upd r n (r b))) as (r1 & O1 & S1 & C1); [rewrite upd_eq, upd_neq by lia; exact Hs|].
    assert (O2 : outside n n1 r r1) by (apply (outside_trans _ _ _ _ (upd r n (r b))); [apply outside_upd; lia|apply (outside_mono _ _ _ _ _ _ _ O1); lia]).
    assert (EN : r1 n = r1 b) by (rewrite (O1 n), (O1 b), upd_eq, upd_neq by lia; reflexivity).
    exists r1. split; [exact O2|]. split; [destruct idA; [exact S1|apply sate_app; split; [exact S1|apply sate_one; exact EN]]|].
    intros r2 F2 E. assert (G : all J F gA r2) by (apply C1; [exact F2|]; intros v Hv; apply E; unfold loc in *; lia).
    destruct idA; [|exact G]. constructor; [|exact G]. cbn. rewrite (E n), (E b) by (unfold loc; lia). exact EN.
Qed.
(** the alternation: [T] says when the goals of the first alternative, or else those of the second one, are taken *)
Lemma piece_or : forall (spA spB sp : sem) kA kB k a b n n1 n2 eA eB gA gB g, a < n -> b < n ->
  Piece spA false kA a b false false n n1 eA gA -> Piece spB false kB a b false false n1 n2 eB gB ->
  (k = true -> kA = true /\ kB = true) ->
  (k = true -> forall (W : Type) (J : interp W) (F R : (nat -> W) -> Prop), (forall r, F r <-> R r /\ sate J eA r) -> stable n n1 R -> exists Q : W -> Prop,
     (forall r, F r -> (holds J F g r <-> all J F gA r \/ (Q (r a) /\ all J F gB r))) /\ (forall x y, sp W J x y <-> spA W J x y \/ (Q x /\ spB W J x y))) ->
  Piece sp false k a b false false n n2 (eA ++ eB) [g].
Proof.
  intros spA spB sp kA kB k a b n n1 n2 eA eB gA gB g La Lb PA PB HK HG. pose proof (p_n _ _ _ _ _ _ _ _ _ _ _ PA) as N1. pose proof (p_n _ _ _ _ _ _ _ _ _ _ _ PB) as N2.
  assert (STA : forall (W : Type) (J : interp W), stable n1 n2 (sate J eA)) by (intros W J; apply (sate_stable W J a b n n1); [apply (p_loc _ _ _ _ _ _ _ _ _ _ _ PA)|lia|lia|lia]).
  assert (STB : forall (W : Type) (J : interp W), stable n n1 (sate J eB)) by (intros W J; apply (sate_stable W J a b n1 n2); [apply (p_loc _ _ _ _ _ _ _ _ _ _ _ PB)|lia|lia|lia]).
  assert (EXT : forall (W : Type) (J : interp W) (r : nat -> W), exists r', outside n n2 r r' /\ sate J (eA ++ eB) r').
  { intros W J r. destruct (p_EF _ _ _ _ _ _ _ _ _ _ _ PA eq_refl W J r) as (r1 & O1 & S1); [discriminate|]. destruct (p_EF _ _ _ _ _ _ _ _ _ _ _ PB eq_refl W J r1) as (r2 & O2 & S2); [discriminate|].
    exists r2. split; [apply (outside_trans _ _ _ _ r1); [apply (outside_mono _ _ _ _ _ _ _ O1); lia|apply (outside_mono _ _ _ _ _ _ _ O2); lia]|]. apply sate_app. split; [apply (STA W J r1 r2 O2 S1)|exact S2]. }
  assert (HFA : forall (W : Type) (J : interp W) (F R : (nat -> W) -> Prop), (forall r, F r <-> R r /\ sate J (eA ++ eB) r) -> stable n n2 R ->
    (forall r, F r <-> (R r /\ sate J eB r) /\ sate J eA r) /\ stable n n1 (fun r => R r /\ sate J eB r)).
  { intros W J F R HF SR. split; [intros r; rewrite (HF r), sate_app; tauto|]. intros r r' O (Q1 & Q2). split; [apply (SR r r'); [apply (outside_mono _ _ _ _ _ _ _ O); lia|exact Q1]|apply (STB W J r r' O Q2)]. }
  assert (HFB : forall (W : Type) (J : interp W) (F R : (nat -> W) -> Prop), (forall r, F r <-> R r /\ sate J (eA ++ eB) r) -> stable n n2 R ->
    (forall r, F r <-> (R r /\ sate J eA r) /\ sate J eB r) /\ stable n1 n2 (fun r => R r /\ sate J eA r)).
  { intros W J F R HF SR. split; [intros r; rewrite (HF r), sate_app; tauto|]. intros r r' O (Q1 & Q2). split; [apply (SR r r'); [apply (outside_mono _ _ _ _ _ _ _ O); lia|exact Q1]|apply (STA W J r r' O Q2)]. }
  constructor.
  - lia.
  - reflexivity.
  - apply eloc_app.
    + apply (eloc_sub _ _ _ _ a b n n2 _ (p_loc _ _ _ _ _ _ _ _ _ _ _ PA)); unfold loc; auto; lia.
    + apply (eloc_sub _ _ _ _ a b n n2 _ (p_loc _ _ _ _ _ _ _ _ _ _ _ PB)); unfold loc; auto; lia.
  - intros _ W J r _. apply EXT.
  - intros W J y. exists y. intros r _ _. apply EXT.
  - intros Hk W J F R HF SR r Fr Hall. destruct (HK Hk) as (KA & KB). destruct (HFA W J F R HF SR) as (A1 & A2). destruct (HFB W J F R HF SR) as (B1 & B2).
    destruct (HG Hk W J F _ A1 A2) as (Q & Q1 & Q2). pose proof (Forall_inv Hall) as G. apply (Q1 r Fr) in G. apply Q2. destruct G as [G|(G1 & G)].
    + left. apply (p_S _ _ _ _ _ _ _ _ _ _ _ PA KA W J F _ A1 A2 r Fr G).
    + right. split; [exact G1|]. apply (p_S _ _ _ _ _ _ _ _ _ _ _ PB KB W J F _ B1 B2 r Fr G).
  - intros Hk W J F R HF SR r Hs. destruct (HK Hk) as (KA & KB). destruct (HFA W J F R HF SR) as (A1 & A2). destruct (HFB W J F R HF SR) as (B1 & B2).
    destruct (HG Hk W J F _ A1 A2) as (Q & Q1 & Q2). apply Q2 in Hs. destruct Hs as [Hs|(HQ & Hs)].
    + destruct (p_C _ _ _ _ _ _ _ _ _ _ _ PA KA W J F _ A1 A2 r Hs) as (r1 & O1 & S1 & C1). destruct (p_EF _ _ _ _ _ _ _ _ _ _ _ PB eq_refl W J r1) as (r2 & O2 & S2); [discriminate|].
      exists r2. split; [apply (outside_trans _ _ _ _ r1); [apply (outside_mono _ _ _ _ _ _ _ O1); lia|apply (outside_mono _ _ _ _ _ _ _ O2); lia]|].
      split; [apply sate_app; split; [apply (STA W J r1 r2 O2 S1)|exact S2]|]. intros r3 F3 E. constructor; [|constructor]. apply (Q1 r3 F3). left. apply C1; [exact F3|].
      intros v Hv. rewrite E by (unfold loc in *; lia). apply O2. unfold loc in Hv. lia.
    + destruct (p_EF _ _ _ _ _ _ _ _ _ _ _ PA eq_refl W J r) as (r1 & O1 & S1); [discriminate|].
      destruct (p_C _ _ _ _ _ _ _ _ _ _ _ PB KB W J F _ B1 B2 r1) as (r2 & O2 & S2 & C2); [rewrite (O1 a), (O1 b) by lia; exact Hs|].
      exists r2. split; [apply (outside_trans _ _ _ _ r1); [apply (outside_mono _ _ _ _ _ _ _ O1); lia|apply (outside_mono _ _ _ _ _ _ _ O2); lia]|].
      split; [apply sate_app; split; [apply (STA W J r1 r2 O2 S1)|exact S2]|]. intros r3 F3 E. constructor; [|constructor]. apply (Q1 r3 F3). right. split.
      * rewrite (E a) by (unfold loc; auto). rewrite (O2 a), (O1 a) by lia. exact HQ.
      * apply C2; [exact F3|]. intros v Hv. apply E. unfold loc in *. lia.
Qed.
(** the condition of an if-then-else in an alternative whose out variable is [n] *)
Lemma cond_iff : forall (spc spt : sem) idc kc kt a fc ft n n1 n2 ec et gc gt b, a < n -> b < n ->
  Piece spc idc kc a (S n) false fc (S (S n)) n1 ec gc -> Piece spt false kt (S n) n false ft n1 n2 et gt -> kc = true ->
  forall (W : Type) (J : interp W) (F R : (nat -> W) -> Prop), (forall r, F r <-> R r /\ sate J ((ec ++ et) ++ [(n, [], b)]) r) -> stable n n2 R -> forall r, F r ->
    ((exists r', outside (S n) n2 r r' /\ F r' /\ holds J F (conj gc) r') <-> exists z, spc W J (r a) z).
Proof.
  intros spc spt idc kc kt a fc ft n n1 n2 ec et gc gt b La Lb PC PT Hk W J F R HF SR r Fr. pose proof (p_n _ _ _ _ _ _ _ _ _ _ _ PC) as N1. pose proof (p_n _ _ _ _ _ _ _ _ _ _ _ PT) as N2.
  assert (STC : stable n1 n2 (sate J ec)) by (apply (sate_stable W J a (S n) (S (S n)) n1); [apply (p_loc _ _ _ _ _ _ _ _ _ _ _ PC)|lia|lia|lia]).
  assert (STT : stable (S (S n)) n1 (sate J et)) by (apply (sate_stable W J (S n) n n1 n2); [apply (p_loc _ _ _ _ _ _ _ _ _ _ _ PT)|lia|lia|lia]).
  assert (STE : stable (S n) n2 (sate J [(n, [], b)])) by (intros r0 r' O Q; apply sate_one; apply sate_one in Q; rewrite (O n), (O b) by lia; exact Q).
  assert (A1 : forall r, F r <-> (R r /\ sate J et r /\ sate J [(n, [], b)] r) /\ sate J ec r) by (intros r0; rewrite (HF r0), !sate_app; tauto).
  assert (A2 : stable (S (S n)) n1 (fun r => R r /\ sate J et r /\ sate J [(n, [], b)] r)).
  { intros r0 r' O (Q1 & Q2 & Q3). split; [apply (SR r0 r'); [apply (outside_mono _ _ _ _ _ _ _ O); lia|exact Q1]|]. split; [apply (STT r0 r' O Q2)|apply (STE r0 r'); [apply (outside_mono _ _ _ _ _ _ _ O); lia|exact Q3]]. }
  split.
  - intros (r' & O & F' & H). apply all_conj in H. exists (r' (S n)). rewrite <- (O a) by lia. apply (p_S _ _ _ _ _ _ _ _ _ _ _ PC Hk W J F _ A1 A2 r' F' H).
  - intros (z & Hz). destruct (p_C _ _ _ _ _ _ _ _ _ _ _ PC Hk W J F _ A1 A2 (upd r (S n) z)) as (r1 & O1 & S1 & C1); [rewrite upd_eq, upd_neq by lia; exact Hz|].
    destruct (p_EF _ _ _ _ _ _ _ _ _ _ _ PT eq_refl W J r1) as (r2 & O2 & S2); [discriminate|].
    assert (O : outside (S n) n2 r r2).
    { apply (outside_trans _ _ _ _ (upd r (S n) z)); [apply outside_upd; lia|]. apply (outside_trans _ _ _ _ r1); [apply (outside_mono _ _ _ _ _ _ _ O1); lia|apply (outside_mono _ _ _ _ _ _ _ O2); lia]. }
    assert (F2 : F r2).
    { apply HF in Fr. destruct Fr as (R0 & S0). apply sate_app in S0. apply HF. split; [apply (SR r r2); [apply (outside_mono _ _ _ _ _ _ _ O); lia|exact R0]|].
      apply sate_app. split; [apply sate_app; split; [apply (STC r1 r2 O2 S1)|exact S2]|]. apply (STE r r2 O). apply S0. }
    exists r2. split; [exact O|]. split; [exact F2|]. apply all_conj. apply C1; [exact F2|]. intros v Hv. apply O2. unfold loc in Hv. lia.
Qed.

(** * The translation *)
Definition Pre (a b : nat) (s : st) : Prop := a < nx s /\ b < nx s /\ below (nx s) (bl s) /\ Ind (bl s) a b.
Definition Post (d : dcg) (opt : bool) (a b : nat) (s : st) (gs : list goal) (s' : st) (e : list eqn) : Prop :=
  adds (bl s) (bl s') e /\ below (nx s') (bl s') /\ (exists m, bl s' = bl s ++ m) /\ (same_var opt d = true -> res (bl s') a = res (bl s') b) /\
  Piece (fun W J => means J d) (same_var opt d) (then_ok d) a b (fl s) (fl s') (nx s) (nx s') e gs.
Definition Good (d : dcg) : Prop := forall opt a b s, Pre a b s ->
  match first_err d with
  | Some e => on_stack d opt a b s = Err e
  | None => exists gs s' e, on_stack d opt a b s = Ok (gs, s') /\ Post d opt a b s gs s' e
  end.
Lemma ind_new : forall l a b n, Ind l a b -> below n l -> a < n -> Ind l a n.
Proof.
  intros l a b n H B La W J x y. destruct (H W J x x) as (r & S1 & E1 & _). exists (upd r n y). split; [|split; [rewrite upd_neq by lia; exact E1|apply upd_eq]].
  apply (sat_stable W J l n (S n) B r); [apply outside_upd; lia|exact S1].
Qed.
Lemma ind_after : forall sp id k a b f f1 n n1 e g l l', a < n -> b < n -> Piece sp id k a n f f1 (S n) n1 e g -> adds l l' e -> Ind l a b -> below n l -> Ind l' n b.
Proof.
  intros sp id k a b f f1 n n1 e g l l' La Lb P AD H B W J x y. destruct (p_ET _ _ _ _ _ _ _ _ _ _ _ P W J x) as (z & HZ). destruct (H W J z y) as (r & S1 & E1 & E2).
  destruct (HZ (upd r n x)) as (r' & O & S2); [rewrite upd_neq by lia; exact E1|apply upd_eq|]. pose proof (p_n _ _ _ _ _ _ _ _ _ _ _ P). exists r'. split; [|split; [rewrite (O n) by lia; apply upd_eq|rewrite (O b), upd_neq by lia; exact E2]].
  apply AD. split; [|exact S2]. apply (sat_stable W J l n n1 B (upd r n x)); [apply (outside_mono _ _ _ _ _ _ _ O); lia|]. apply (sat_stable W J l n n1 B r); [apply outside_upd; lia|exact S1].
Qed.
Lemma ind_keep : forall sp k a b f' n n1 e g l l', a < n -> b < n -> Piece sp false k a b false f' n n1 e g -> adds l l' e -> Ind l a b -> below n l -> Ind l' a b.
Proof.
  intros sp k a b f' n n1 e g l l' La Lb P AD H B W J x y. destruct (H W J x y) as (r & S1 & E1 & E2).
  destruct (p_EF _ _ _ _ _ _ _ _ _ _ _ P eq_refl W J r) as (r' & O & S2); [discriminate|]. exists r'. split; [|split; [rewrite (O a) by lia; exact E1|rewrite (O b) by lia; exact E2]].
  apply AD. split; [|exact S2]. apply (sat_stable W J l n n1 B r); [exact O|exact S1].
Qed.
Lemma ind_test : forall sp id k a b f' n n1 e g l l', a < n -> b < n -> Piece sp id k a n false f' (S n) n1 e g -> adds l l' e -> Ind l a b -> below n l -> Ind l' a b.
Proof.
  intros sp id k a b f' n n1 e g l l' La Lb P AD H B W J x y. destruct (H W J x y) as (r & S1 & E1 & E2). pose proof (p_n _ _ _ _ _ _ _ _ _ _ _ P).
  destruct (p_EF _ _ _ _ _ _ _ _ _ _ _ P eq_refl W J (upd r n (r a))) as (r' & O & S2); [intros _; rewrite upd_eq, upd_neq by lia; reflexivity|].
  exists r'. split; [|split; [rewrite (O a), upd_neq by lia; exact E1|rewrite (O b), upd_neq by lia; exact E2]].
  apply AD. split; [|exact S2]. apply (sat_stable W J l n n1 B (upd r n (r a))); [apply (outside_mono _ _ _ _ _ _ _ O); lia|]. apply (sat_stable W J l n n1 B r); [apply outside_upd; lia|exact S1].
Qed.
Lemma pre_new : forall a b s f, Pre a b s -> Pre a (nx s) (St (S (nx s)) (bl s) f).
Proof.
  intros a b s f (La & Lb & B & H). unfold Pre. cbn [nx bl]. split; [lia|]. split; [lia|]. split; [apply (below_mono _ _ _ B); lia|]. apply (ind_new _ _ b); auto.
Qed.
Lemma list_eqb_spec : forall a b, list_eqb a b = true <-> a = b.
Proof. intros a b. unfold list_eqb. destruct (list_eq_dec Nat.eq_dec a b); split; congruence. Qed.
Lemma term_eq_ok : forall sp id k a b f' n n1 e g l l', a < n -> b < n -> Piece sp id k a b false f' n n1 e g -> adds l l' e -> Ind l a b -> below n l ->
  (id = true -> res l' a = res l' b) -> term_eq l' a b = id.
Proof.
  intros sp id k a b f' n n1 e g l l' La Lb P AD H B HR. destruct id.
  - unfold term_eq. rewrite (HR eq_refl). apply andb_true_iff. split; [apply list_eqb_spec; reflexivity|apply Nat.eqb_refl].
  - destruct (term_eq l' a b) eqn:E; [exfalso|reflexivity]. unfold term_eq in E. apply andb_true_iff in E. destruct E as (E1 & E2). apply list_eqb_spec in E1. apply Nat.eqb_eq in E2.
    destruct (ind_keep _ _ _ _ _ _ _ _ _ l l' La Lb P AD H B _ JL [] [0]) as (r & S1 & Q1 & Q2). rewrite (res_sat _ JL r l' a S1), E1, E2, <- (res_sat _ JL r l' b S1), Q2 in Q1. discriminate Q1.
Qed.
(** plain_body *)
Lemma plain_ok : forall d a b s, Good d -> Pre a b s ->
  match first_err d with
  | Some e => plain_body (on_stack d) a b s = Err e
  | None => exists gs s' e, plain_body (on_stack d) a b s = Ok (conj gs, s') /\ Post d false a b s gs s' e /\ fl s' = fl s
  end.
Proof.
  intros d a b s G P. specialize (G false a b s P). unfold plain_body. destruct (first_err d) as [er|].
  - rewrite G. reflexivity.
  - destruct G as (gs & s' & e & E & Q1 & Q2 & Q3 & Q4 & Q5). rewrite E. cbn [bind fst snd]. exists gs, (set_fl s' (fl s)), e. split; [reflexivity|]. split; [|reflexivity].
    unfold Post. cbn [bl nx fl set_fl]. split; [exact Q1|]. split; [exact Q2|]. split; [exact Q3|]. split; [exact Q4|].
    destruct (fl s) eqn:Ef; [|apply (piece_restore _ _ _ _ _ _ _ _ _ _ _ Q5)]. destruct Q5 as [H1 H2 H3 H4 H5 H6 H7]. constructor; auto. discriminate.
Qed.
Lemma if_ok : forall c t soft opt a b s, Good c -> Good t -> Pre a b s ->
  match first_err (DIf soft c t) with
  | Some e => on_stack (DIf soft c t) opt a b s = Err e
  | None => exists gc ec sc gt et s', on_stack (DIf soft c t) opt a b s = Ok ([GIf soft (nx s) (nx s') (conj gc) (conj gt)], s') /\ fl s' = false /\
      adds (bl s) (bl s') (ec ++ et) /\ below (nx s') (bl s') /\ (exists m, bl s' = bl s ++ m) /\ (same_var opt (DIf soft c t) = true -> res (bl s') a = res (bl s') b) /\
      Piece (fun W J => means J c) (same_var false c) (then_ok c) a (nx s) false false (S (nx s)) (nx sc) ec gc /\
      Piece (fun W J => means J t) (same_var false t) (then_ok t) (nx s) b false false (nx sc) (nx s') et gt
  end.
Proof.
  intros c t soft opt a b s Gc Gt P. pose proof P as (La & Lb & B & H). set (s1 := St (S (nx s)) (bl s) false). assert (P1 : Pre a (nx s) s1) by (apply (pre_new a b); exact P).
  pose proof (plain_ok c a (nx s) s1 Gc P1) as Q. cbn [first_err on_stack new_var set_fl nx bl fl]. fold s1. destruct (first_err c) as [er|]; [rewrite Q; reflexivity|].
  destruct Q as (gc & sc & ec & E1 & (A1 & A2 & (m1 & A3) & A4 & A5) & A6). rewrite E1. cbn [bind fst snd]. cbn [bl nx fl s1] in *.
  pose proof (p_n _ _ _ _ _ _ _ _ _ _ _ A5) as N1. cbn [nx s1] in N1.
  assert (P2 : Pre (nx s) b sc). { split; [lia|]. split; [lia|]. split; [exact A2|]. apply (ind_after _ _ _ a b _ _ _ _ _ _ (bl s) (bl sc) La Lb A5 A1 H B). }
  pose proof (plain_ok t (nx s) b sc Gt P2) as Q. destruct (first_err t) as [er|]; [rewrite Q; reflexivity|].
  destruct Q as (gt & s' & et & E2 & (B1 & B2 & (m2 & B3) & B4 & B5) & B6). rewrite E2. cbn [bind fst snd].
  exists gc, ec, sc, gt, et, s'. split; [reflexivity|]. split; [congruence|]. split; [apply (adds_app _ _ _ _ _ A1 B1)|]. split; [exact B2|].
  split; [exists (m1 ++ m2); rewrite B3, A3, app_assoc; reflexivity|]. split.
  - intros SV. cbn in SV. apply andb_true_iff in SV. destruct SV as (SV1 & SV2). rewrite <- (B4 SV2). rewrite B3. apply res_eq_app. apply A4. exact SV1.
  - cbn [fl s1 nx] in A5. rewrite A6 in A5, B5. rewrite B6, A6 in B5. split; assumption.
Qed.
Lemma alt_ok : forall (sp : sem) id k d a b s gs s' e, Pre a b s -> fl s = false -> on_stack d false a (nx s) (St (S (nx s)) (bl s) (fl s)) = Ok (gs, s') ->
  adds (bl s) (bl s') e -> below (nx s') (bl s') -> (exists m, bl s' = bl s ++ m) -> (id = true -> res (bl s') a = res (bl s') (nx s)) ->
  Piece sp id k a (nx s) false (fl s') (S (nx s)) (nx s') e gs ->
  exists s2, alt_body (on_stack d) a b s = Ok (conj (if id then GEq (nx s) [] b :: gs else gs), s2) /\ fl s2 = false /\ nx s2 = nx s' /\
    adds (bl s) (bl s2) (if id then e else e ++ [(nx s, [], b)]) /\ below (nx s2) (bl s2) /\ (exists m, bl s2 = bl s ++ m) /\ Pre a b s2 /\
    Piece sp false k a b false false (nx s) (nx s2) (if id then e else e ++ [(nx s, [], b)]) (if id then GEq (nx s) [] b :: gs else gs).
Proof.
  intros sp id k d a b s gs s' e P Hf E A1 A2 (m & A3) A4 PC. pose proof P as (La & Lb & B & H). pose proof (p_n _ _ _ _ _ _ _ _ _ _ _ PC) as N1.
  pose proof (piece_alt _ _ _ _ b _ _ _ _ _ La Lb PC) as PA.
  assert (TE : term_eq (bl s') a (nx s) = id).
  { apply (term_eq_ok _ _ _ _ _ _ _ _ _ _ (bl s) (bl s') (Nat.lt_lt_succ_r _ _ La) (Nat.lt_succ_diag_r _) PC A1); [apply (ind_new _ _ b); auto|apply (below_mono _ _ _ B); lia|exact A4]. }
  unfold alt_body, new_var. rewrite E. cbn [bind fst snd]. rewrite TE. destruct id.
  - exists (set_fl s' (fl s)). cbn [nx fl bl set_fl]. split; [reflexivity|]. split; [exact Hf|]. split; [reflexivity|]. split; [exact A1|]. split; [exact A2|]. split; [eauto|]. split; [|exact PA].
    split; [cbn; lia|]. split; [cbn; lia|]. split; [exact A2|]. apply (ind_keep _ _ _ _ _ _ _ _ _ (bl s) (bl s') La Lb PA A1 H B).
  - destruct (unify_ok (nx s) [] b s') as (s2 & x & U1 & U2 & U3 & U4 & U5 & U6 & U7); [apply (ind_after _ _ _ a b _ _ _ _ _ _ (bl s) (bl s') La Lb PC A1 H B)|lia|lia|exact A2|].
    rewrite U1. cbn [bind]. exists (set_fl s2 (fl s)). cbn [nx fl bl set_fl]. split; [reflexivity|]. split; [exact Hf|]. split; [exact U2|].
    assert (AD : adds (bl s) (bl s2) (e ++ [(nx s, [], b)])) by apply (adds_app _ _ _ _ _ A1 U5).
    split; [exact AD|]. rewrite U2. split; [exact U6|]. split; [exists (m ++ [x]); rewrite U4, A3, app_assoc; reflexivity|]. split; [|exact PA].
    split; [cbn; lia|]. split; [cbn; lia|]. split; [cbn; rewrite U2; exact U6|]. apply (ind_keep _ _ _ _ _ _ _ _ _ (bl s) (bl s2) La Lb PA AD H B).
Qed.
(** which bodies give no goal, or one if-then *)
Definition is_gif (gs : list goal) : Prop := exists soft lo hi x y, gs = [GIf soft lo hi x y].
Lemma not_if : forall d opt a b s gs s', on_stack d opt a b s = Ok (gs, s') -> fl s = false ->
  (gs = [] -> is_nil d = true /\ fl s' = false) /\ (is_gif gs -> is_if d = true /\ fl s' = false).
Proof.
  assert (UN : forall a ts b s s', unify a ts b s = Ok s' -> fl s' = fl s) by (intros a ts b s s' E; unfold unify in E; destruct (add_eq _ _ _ _); [injection E as <-; reflexivity|discriminate E]).
  assert (NG : forall (g : goal) soft lo hi x y, (forall soft lo hi x y, g <> GIf soft lo hi x y) -> [g] = [GIf soft lo hi x y] -> False) by (intros g soft lo hi x y N Q; injection Q as ->; apply (N soft lo hi x y); reflexivity).
  assert (IO : forall opt g a b s gs s', (forall soft lo hi x y, g <> GIf soft lo hi x y) -> in_is_out opt [g] a b s = Ok (gs, s') -> gs <> [] /\ ~ is_gif gs).
  { intros opt g a b s gs s' N E. unfold in_is_out in E. destruct opt.
    - destruct (unify a [] b s); try discriminate E. injection E as <- <-. split; [discriminate|]. intros (soft & lo & hi & x0 & y & Q). apply (NG _ _ _ _ _ _ N Q).
    - injection E as <- <-. split; [discriminate|]. intros (soft & lo & hi & x0 & y & Q). discriminate Q. }
  induction d as [x| |t ts|e|d1 IH1 d2 IH2|soft d1 IH1 d2 IH2|d1 IH1 d2 IH2|d1 IH1| |g|p]; intros opt a b s gs s' E Hf; cbn [on_stack] in E.
  - injection E as <- <-. split; [discriminate|]. intros (so & lo & hi & x0 & y & Q). discriminate Q.
  - unfold in_is_out in E. destruct (unify a [] b s) as [s1| |] eqn:EU; try discriminate E. injection E as <- <-. split; [intros _; split; [reflexivity|rewrite (UN _ _ _ _ _ EU); exact Hf]|]. intros (so & lo & hi & x0 & y & Q). discriminate Q.
  - unfold term_list in E. rewrite Hf in E. injection E as <- <-. split; [discriminate|]. intros (so & lo & hi & x0 & y & Q). discriminate Q.
  - discriminate E.
  - unfold new_var in E. destruct (on_stack d1 true a (nx s) _) as [(g1, s1)| |] eqn:E1; try discriminate E. cbn [bind fst snd] in E. destruct (on_stack d2 opt (nx s) b s1) as [(g2, s2)| |] eqn:E2; try discriminate E. cbn [bind fst snd] in E. injection E as <- <-.
    destruct (IH1 _ _ _ _ _ _ E1 Hf) as (I1 & I2). destruct g1 as [|g g1].
    + destruct (I1 eq_refl) as (I3 & I4). destruct (IH2 _ _ _ _ _ _ E2 I4) as (J1 & J2). cbn [app is_nil is_if]. rewrite I3. split; [exact J1|]. intros Q. destruct (J2 Q) as (J3 & J4). rewrite J3. auto.
    + split; [discriminate|]. intros (so & lo & hi & x0 & y & Q). cbn in Q. injection Q as -> Q. apply app_eq_nil in Q. destruct Q as (-> & ->).
      destruct I2 as (I3 & I4); [unfold is_gif; eauto 6|]. destruct (IH2 _ _ _ _ _ _ E2 I4) as (J1 & _). destruct (J1 eq_refl) as (J2 & J3). cbn [is_if]. rewrite I3, J2. split; [apply orb_true_r|exact J3].
  - unfold new_var in E. destruct (plain_body (on_stack d1) a _ _) as [(g1, s1)| |] eqn:E1; try discriminate E. cbn [bind fst snd] in E. destruct (plain_body (on_stack d2) _ b s1) as [(g2, s2)| |] eqn:E2; try discriminate E. cbn [bind fst snd] in E. injection E as <- <-.
    split; [discriminate|]. intros _. split; [reflexivity|]. unfold plain_body in E1, E2. destruct (on_stack d1 _ _ _ _) as [r1| |]; try discriminate E1. injection E1 as _ <-. destruct (on_stack d2 _ _ _ _) as [r2| |]; try discriminate E2. injection E2 as _ <-. reflexivity.
  - destruct (alt_body (on_stack d1) a b _) as [(g1, s1)| |] eqn:E1; try discriminate E. cbn [bind fst snd] in E. destruct (alt_body (on_stack d2) a b s1) as [(g2, s2)| |] eqn:E2; try discriminate E. cbn [bind fst snd] in E. injection E as <- <-.
    split; [discriminate|]. intros (so & lo & hi & x0 & y & Q). discriminate Q.
  - unfold new_var in E. destruct (plain_body (on_stack d1) a _ _) as [(g1, s1)| |] eqn:E1; try discriminate E. cbn [bind fst snd] in E. apply IO in E; [|discriminate]. destruct E as (Q1 & Q2). split; [intros Q; contradiction|intros Q; contradiction].
  - apply IO in E; [|discriminate]. destruct E as (Q1 & Q2). split; [intros Q; contradiction|intros Q; contradiction].
  - apply IO in E; [|discriminate]. destruct E as (Q1 & Q2). split; [intros Q; contradiction|intros Q; contradiction].
  - injection E as <- <-. split; [discriminate|]. intros (so & lo & hi & x0 & y & Q). discriminate Q.
Qed.
Lemma conj_gif : forall gs soft lo hi x y, conj gs = GIf soft lo hi x y -> is_gif gs.
Proof. intros [|g [|g2 gs]] soft lo hi x y E; cbn in E; try discriminate E. subst g. unfold is_gif. eauto 6. Qed.
Definition GoodS (d : dcg) : Prop := Good d /\ match d with DIf _ c t => Good c /\ Good t | _ => True end.
Lemma unify_pre : forall a b s f, Pre a b s -> Pre a b (set_fl s f).
Proof. intros a b s f P. exact P. Qed.
Lemma one_goal : forall (W : Type) (J : interp W) F g r, all J F [g] r <-> holds J F g r.
Proof. intros. split; [intros H; apply (Forall_inv H)|intros H; constructor; [exact H|constructor]]. Qed.
Lemma two_goals : forall (W : Type) (J : interp W) F g g' r, all J F [g; g'] r <-> holds J F g r /\ holds J F g' r.
Proof. intros. split; [intros H; split; [apply (Forall_inv H)|apply (Forall_inv (Forall_inv_tail H))]|intros (H1 & H2); constructor; [exact H1|constructor; [exact H2|constructor]]]. Qed.
Lemma piece_flag : forall sp id k a b f f' n n' e gs, Piece sp id k a b false f' n n' e gs -> Piece sp id k a b f f' n n' e gs.
Proof. intros sp id k a b [|] f' n n' e gs PF; [|exact PF]. destruct PF as [H1 H2 H3 H4 H5 H6 H7]. constructor; auto; discriminate. Qed.
Lemma post_flag : forall d opt a b s gs s' e, Post d opt a b (set_fl s false) gs s' e -> Post d opt a b s gs s' e.
Proof. intros d opt a b s gs s' e (A1 & A2 & A3 & A4 & A5). split; [exact A1|]. split; [exact A2|]. split; [exact A3|]. split; [exact A4|]. apply piece_flag. exact A5. Qed.
(** a test which does not depend on the lists: ! and {} *)
Lemma flat_ok : forall d g (T : forall W : Type, interp W -> Prop) opt a b s, Pre a b s -> fl s = false ->
  (forall W (J : interp W) F r, holds J F g r <-> T W J) -> (forall W (J : interp W) x y, means J d x y <-> T W J /\ x = y) -> same_var opt d = opt ->
  exists gs s' e, in_is_out opt [g] a b s = Ok (gs, s') /\ Post d opt a b s gs s' e.
Proof.
  intros d g T opt a b s (La & Lb & B & H) Hf HG HM SV. unfold in_is_out, Post. rewrite SV. destruct opt.
  - destruct (unify_ok a [] b s H La Lb B) as (s2 & x & U1 & U2 & U3 & U4 & U5 & U6 & U7). rewrite U1. cbn [bind]. exists [g], s2, [(a, [], b)]. split; [reflexivity|]. rewrite U2, U3. split; [exact U5|]. split; [exact U6|]. split; [eauto|]. split; [auto|].
    apply (piece_eq _ _ a [] b).
    + intros W J F r E Hall. apply HM. split; [apply (HG W J F r); apply one_goal; exact Hall|exact E].
    + intros W J F r Hm. apply HM in Hm. split; [apply Hm|]. apply one_goal. apply HG. apply Hm.
    + reflexivity.
  - exists [g; GEq a [] b], s, []. split; [reflexivity|]. split; [apply adds_nil|]. split; [exact B|]. split; [exists []; rewrite app_nil_r; reflexivity|]. split; [discriminate|].
    apply piece_goals. intros W J F r. rewrite two_goals, HG. cbn [holds consn fold_right]. symmetry. apply HM.
Qed.
Lemma on_stack_ok : forall d, GoodS d.
Proof.
  induction d as [x| |t ts|e|d1 IH1 d2 IH2|soft d1 IH1 d2 IH2|d1 IH1 d2 IH2|d1 IH1| |g|p]; (split; [|try exact Logic.I]).
  - intros opt a b s (La & Lb & B & H). cbn [first_err on_stack]. exists [GPhr x a b], s, []. split; [reflexivity|]. split; [apply adds_nil|]. split; [exact B|]. split; [exists []; rewrite app_nil_r; reflexivity|]. split; [discriminate|].
    apply piece_goals. intros W J F r. apply one_goal.
  - intros opt a b s (La & Lb & B & H). cbn [first_err on_stack]. unfold in_is_out, Post. destruct (unify_ok a [] b s H La Lb B) as (s2 & x & U1 & U2 & U3 & U4 & U5 & U6 & U7). rewrite U1. cbn [bind]. exists [], s2, [(a, [], b)].
    split; [reflexivity|]. rewrite U2, U3. split; [exact U5|]. split; [exact U6|]. split; [eauto|]. split; [auto|]. apply (piece_eq _ _ a [] b).
    + intros W J F r E _. exact E.
    + intros W J F r E. split; [exact E|constructor].
    + reflexivity.
  - intros opt a b s (La & Lb & B & H). cbn [first_err on_stack]. unfold term_list, Post. destruct (fl s) eqn:Ef.
    + destruct (unify_ok a (t :: ts) b s H La Lb B) as (s2 & x & U1 & U2 & U3 & U4 & U5 & U6 & U7). rewrite U1. cbn [bind]. exists [], s2, [(a, t :: ts, b)].
      split; [reflexivity|]. rewrite U2, U3, Ef. split; [exact U5|]. split; [exact U6|]. split; [eauto|]. split; [discriminate|]. apply (piece_eq _ _ a (t :: ts) b).
      * intros W J F r E _. exact E.
      * intros W J F r E. split; [exact E|constructor].
      * discriminate.
    + exists [GEq a (t :: ts) b], (set_fl s true), []. split; [reflexivity|]. cbn [bl nx fl set_fl]. split; [apply adds_nil|]. split; [exact B|]. split; [exists []; rewrite app_nil_r; reflexivity|]. split; [discriminate|].
      apply piece_goals. intros W J F r. apply one_goal.
  - intros opt a b s P. reflexivity.
  - intros opt a b s P. destruct IH1 as (IH1 & _). destruct IH2 as (IH2 & _). pose proof P as (La & Lb & B & H). set (s1 := St (S (nx s)) (bl s) (fl s)). assert (P1 : Pre a (nx s) s1) by (apply (pre_new a b); exact P).
    pose proof (IH1 true a (nx s) s1 P1) as Q. cbn [first_err on_stack new_var]. fold s1. destruct (first_err d1) as [er|]; [rewrite Q; reflexivity|].
    destruct Q as (g1 & sc & e1 & E1 & (A1 & A2 & (m1 & A3) & A4 & A5)). rewrite E1. cbn [bind fst snd]. cbn [bl nx fl s1] in *. pose proof (p_n _ _ _ _ _ _ _ _ _ _ _ A5) as N1.
    assert (P2 : Pre (nx s) b sc). { split; [lia|]. split; [lia|]. split; [exact A2|]. apply (ind_after _ _ _ a b _ _ _ _ _ _ (bl s) (bl sc) La Lb A5 A1 H B). }
    pose proof (IH2 opt (nx s) b sc P2) as Q. destruct (first_err d2) as [er|]; [rewrite Q; reflexivity|].
    destruct Q as (g2 & s' & e2 & E2 & (B1 & B2 & (m2 & B3) & B4 & B5)). rewrite E2. cbn [bind fst snd].
    exists (g1 ++ g2), s', (e1 ++ e2). split; [reflexivity|]. split; [apply (adds_app _ _ _ _ _ A1 B1)|]. split; [exact B2|]. split; [exists (m1 ++ m2); rewrite B3, A3, app_assoc; reflexivity|]. split.
    + intros SV. cbn in SV. apply andb_true_iff in SV. destruct SV as (SV1 & SV2). rewrite <- (B4 SV2). rewrite B3. apply res_eq_app. apply A4. exact SV1.
    + apply (piece_comma _ _ _ _ _ _ _ _ _ _ _ _ _ _ _ _ _ _ La Lb A5 B5).
  - intros opt a b s P. pose proof (if_ok d1 d2 soft opt a b s (proj1 IH1) (proj1 IH2) P) as Q. destruct (first_err (DIf soft d1 d2)) as [er|]; [exact Q|].
    destruct Q as (gc & ec & sc & gt & et & s' & E & Hf & A1 & A2 & A3 & A4 & PC & PT). exists [GIf soft (nx s) (nx s') (conj gc) (conj gt)], s', (ec ++ et). split; [exact E|].
    split; [exact A1|]. split; [exact A2|]. split; [exact A3|]. split; [exact A4|]. pose proof P as (La & Lb & B & H). pose proof (piece_comma _ _ _ _ _ _ _ _ _ _ _ _ _ _ _ _ _ _ La Lb PC PT) as PP.
    rewrite Hf. assert (PF : Piece (fun W J => means J (DIf soft d1 d2)) (same_var opt (DIf soft d1 d2)) (then_ok (DIf soft d1 d2)) a b false false (nx s) (nx s') (ec ++ et) [GIf soft (nx s) (nx s') (conj gc) (conj gt)]).
    { apply (piece_ext _ _ _ _ _ _ _ _ _ _ _ _ _ _ PP); [auto|intros _ W J x y; reflexivity|]. intros W J F r. rewrite one_goal. cbn [holds]. rewrite !all_conj. unfold all. rewrite Forall_app. reflexivity. }
    apply piece_flag. exact PF.
  - split; [apply IH1|apply IH2].
  - intros opt a b s P0. destruct IH1 as (IH1 & IHif). destruct IH2 as (IH2 & _).
    assert (P : Pre a b (set_fl s false)) by exact P0. pose proof P as (La & Lb & B & H). cbn [nx bl set_fl] in La, Lb, B, H.
    assert (P1 : Pre a (nx s) (St (S (nx s)) (bl s) false)) by (apply (pre_new a b); exact P0).
    assert (END : forall (sp1 : sem) id1 k1 g1 s1 e1 (k : bool), on_stack d1 false a (nx s) (St (S (nx s)) (bl s) false) = Ok (g1, s1) -> adds (bl s) (bl s1) e1 -> below (nx s1) (bl s1) -> (exists m, bl s1 = bl s ++ m) ->
      (id1 = true -> res (bl s1) a = res (bl s1) (nx s)) -> Piece sp1 id1 k1 a (nx s) false (fl s1) (S (nx s)) (nx s1) e1 g1 -> first_err d1 = None -> then_ok (DOr d1 d2) = k -> (k = true -> k1 = true) ->
      (k = true -> forall (W : Type) (J : interp W) (F R : (nat -> W) -> Prop) g2, (forall r, F r <-> R r /\ sate J (if id1 then e1 else e1 ++ [(nx s, [], b)]) r) -> stable (nx s) (nx s1) R -> exists Q : W -> Prop,
         (forall r, F r -> (holds J F (GOr (conj (if id1 then GEq (nx s) [] b :: g1 else g1)) (conj g2)) r <-> all J F (if id1 then GEq (nx s) [] b :: g1 else g1) r \/ (Q (r a) /\ all J F g2 r))) /\
         (forall x y, means J (DOr d1 d2) x y <-> sp1 W J x y \/ (Q x /\ means J d2 x y))) ->
      match first_err d2 with
      | Some e => on_stack (DOr d1 d2) opt a b s = Err e
      | None => exists gs s' e, on_stack (DOr d1 d2) opt a b s = Ok (gs, s') /\ Post (DOr d1 d2) opt a b s gs s' e
      end).
    { intros sp1 id1 k1 g1 s1 e1 k E1 A1 A2 A3 A4 PC FE TK HK HG.
      destruct (alt_ok sp1 id1 k1 d1 a b (set_fl s false) g1 s1 e1 P eq_refl E1 A1 A2 A3 A4 PC) as (s2 & F1 & F2 & F3 & F4 & F5 & (m1 & F6) & F7 & F8). cbn [on_stack]. rewrite F1. cbn [bind fst snd].
      pose proof F7 as (La2 & Lb2 & B2 & H2). pose proof (IH2 false a (nx s2) (St (S (nx s2)) (bl s2) (fl s2)) (pre_new a b s2 (fl s2) F7)) as Q.
      destruct (first_err d2) as [er|]; [unfold alt_body at 1, new_var; rewrite Q; reflexivity|].
      destruct Q as (g2 & s3 & e2 & E2 & (B1 & B3 & B4 & B5 & B6)). cbn [bl nx fl] in *. rewrite F2 in B6.
      destruct (alt_ok _ _ _ d2 a b s2 g2 s3 e2 F7 F2 E2 B1 B3 B4 B5 B6) as (s4 & K1 & K2 & K3 & K4 & K5 & (m2 & K6) & K7 & K8). rewrite K1. cbn [bind fst snd].
      do 2 eexists. exists ((if id1 then e1 else e1 ++ [(nx s, [], b)]) ++ (if same_var false d2 then e2 else e2 ++ [(nx s2, [], b)])). split; [reflexivity|].
      split; [apply (adds_app _ _ _ _ _ F4 K4)|]. split; [exact K5|]. split; [exists (m1 ++ m2); rewrite K6, F6; cbn; rewrite app_assoc; reflexivity|]. split; [discriminate|].
      rewrite K2. cbn [nx bl set_fl] in F8. rewrite TK.
      assert (PF : Piece (fun W J => means J (DOr d1 d2)) false k a b false false (nx s) (nx s4) ((if id1 then e1 else e1 ++ [(nx s, [], b)]) ++ (if same_var false d2 then e2 else e2 ++ [(nx s2, [], b)]))
        [GOr (conj (if id1 then GEq (nx s) [] b :: g1 else g1)) (conj (if same_var false d2 then GEq (nx s2) [] b :: g2 else g2))]).
      { apply (piece_or _ _ _ _ _ _ _ _ _ _ _ _ _ _ _ _ La Lb F8 K8).
        - intros Hk. split; [apply HK; exact Hk|]. subst k. cbn in Hk. apply andb_true_iff in Hk. destruct Hk as (Hk & _). apply andb_true_iff in Hk. apply Hk.
        - intros Hk W J F R HF SR. rewrite F3 in SR. destruct (HG Hk W J F R (if same_var false d2 then GEq (nx s2) [] b :: g2 else g2) HF SR) as (Q & Q1 & Q2). exists Q. split; [exact Q1|exact Q2]. }
      apply piece_flag. exact PF. }
    assert (ERR : forall er, first_err d1 = Some er -> on_stack (DOr d1 d2) opt a b s = Err er).
    { intros er Q. pose proof (IH1 false a (nx s) _ P1) as G. rewrite Q in G. cbn [on_stack]. unfold alt_body at 1, new_var. cbn [nx bl fl set_fl]. rewrite G. reflexivity. }
    cbn [first_err]. destruct (first_err d1) as [er|] eqn:FE1; [apply ERR; reflexivity|].
    assert (DEC : (exists soft c t, d1 = DIf soft c t) \/ (forall soft c t, d1 <> DIf soft c t)) by (destruct d1; eauto; right; discriminate).
    destruct DEC as [(soft & c & t & ->)|NIF].
    + destruct IHif as (Gc & Gt). pose proof (if_ok c t soft false a (nx s) _ Gc Gt P1) as Q. rewrite FE1 in Q. destruct Q as (gc & ec & sc & gt & et & s1 & E & Hf & A1 & A2 & A3 & A4 & PC & PT). cbn [nx bl] in *.
      pose proof (piece_comma _ _ _ _ _ _ _ _ _ _ _ _ _ _ _ _ _ _ (Nat.lt_lt_succ_r _ _ La) (Nat.lt_succ_diag_r (nx s)) PC PT) as PP.
      apply (END (fun W J => means J (DIf soft c t)) (same_var false c && same_var false t) (then_ok c && then_ok t) [GIf soft (S (nx s)) (nx s1) (conj gc) (conj gt)] s1 (ec ++ et) (then_ok (DOr (DIf soft c t) d2))); auto.
      * rewrite Hf. apply (piece_ext _ _ _ _ _ _ _ _ _ _ _ _ _ _ PP); [auto|intros _ W J x y; reflexivity|]. intros W J F r. rewrite one_goal. cbn [holds]. rewrite !all_conj. unfold all. rewrite Forall_app. reflexivity.
      * intros Hk. cbn in Hk. apply andb_true_iff in Hk. destruct Hk as (Hk & _). apply andb_true_iff in Hk. apply Hk.
      * intros Hk W J F R g2 HF SR. cbn in Hk. apply andb_true_iff in Hk. destruct Hk as (Hk & Hk2). apply andb_true_iff in Hk. destruct Hk as (Hk & _). apply andb_true_iff in Hk. destruct Hk as (Hkc & Hkt). apply negb_true_iff in Hk2.
        rewrite Hk2, andb_false_r in HF |- *. rewrite Hk2 in PT. exists (fun x => ~ (exists z, means J c x z)). split.
        -- intros r Fr. cbn [conj holds]. rewrite one_goal. cbn [holds]. rewrite all_conj. rewrite (cond_iff _ _ _ _ _ _ _ _ _ _ _ _ _ _ _ b La Lb PC PT Hkc W J F R HF SR r Fr). rewrite !all_conj. tauto.
        -- intros x y. reflexivity.
    + pose proof (IH1 false a (nx s) _ P1) as Q. rewrite FE1 in Q. destruct Q as (g1 & s1 & e1 & E1 & (A1 & A2 & A3 & A4 & A5)). cbn [nx bl fl] in *.
      apply (END (fun W J => means J d1) (same_var false d1) (then_ok d1) g1 s1 e1 (then_ok (DOr d1 d2))); auto.
      * intros Hk. cbn in Hk. apply andb_true_iff in Hk. destruct Hk as (Hk & _). apply andb_true_iff in Hk. apply Hk.
      * intros Hk W J F R g2 HF SR. exists (fun _ => True). split.
        -- intros r Fr. assert (NG : ~ is_gif (if same_var false d1 then GEq (nx s) [] b :: g1 else g1)).
           { destruct (same_var false d1); [intros (so & lo & hi & x & y & Q); discriminate Q|]. intros Q. destruct (not_if _ _ _ _ _ _ _ E1 eq_refl) as (_ & X). destruct (X Q) as (X1 & _).
             cbn in Hk. apply andb_true_iff in Hk. destruct Hk as (_ & Hk). rewrite X1 in Hk. destruct d1; try discriminate Hk. apply (NIF soft d1_1 d1_2). reflexivity. }
           set (L := if same_var false d1 then GEq (nx s) [] b :: g1 else g1) in *. rewrite <- (all_conj W J F L r), <- (all_conj W J F g2 r).
           destruct (conj L) eqn:EL; cbn [holds]; try tauto. exfalso. apply NG. apply (conj_gif _ _ _ _ _ _ EL).
        -- intros x y. destruct d1; cbn [means]; try tauto. exfalso. apply (NIF soft d1_1 d1_2). reflexivity.
  - intros opt a b s P0. destruct IH1 as (IH1 & _). pose proof P0 as (La & Lb & B & H). assert (P1 : Pre a (nx s) (St (S (nx s)) (bl s) false)) by (apply (pre_new a b); exact P0).
    pose proof (plain_ok d1 a (nx s) _ IH1 P1) as Q. cbn [first_err on_stack new_var set_fl nx bl fl]. destruct (first_err d1) as [er|]; [rewrite Q; reflexivity|].
    destruct Q as (g1 & s1 & e1 & E1 & (A1 & A2 & (m1 & A3) & A4 & A5) & A6). rewrite E1. cbn [bind fst snd]. cbn [bl nx fl] in *. rewrite A6 in A5. pose proof (p_n _ _ _ _ _ _ _ _ _ _ _ A5) as N1.
    pose proof (piece_test _ _ _ _ b _ _ _ _ _ opt La Lb A5) as PT. unfold in_is_out. destruct opt.
    + destruct (unify_ok a [] b s1) as (s2 & x & U1 & U2 & U3 & U4 & U5 & U6 & U7); [apply (ind_test _ _ _ a b _ _ _ _ _ (bl s) (bl s1) La Lb A5 A1 H B)|lia|lia|exact A2|].
      rewrite U1. cbn [bind]. do 2 eexists. exists (e1 ++ [(a, [], b)]). split; [reflexivity|]. unfold Post. rewrite U2, U3, A6. split; [apply (adds_app _ _ _ _ _ A1 U5)|]. split; [exact U6|].
      split; [exists (m1 ++ [x]); rewrite U4, A3, app_assoc; reflexivity|]. split; [auto|]. apply piece_flag. exact PT.
    + do 2 eexists. exists e1. split; [reflexivity|]. unfold Post. rewrite A6. split; [exact A1|]. split; [exact A2|]. split; [eauto|]. split; [discriminate|]. apply piece_flag. exact PT.
  - intros opt a b s P. cbn [first_err on_stack]. destruct (flat_ok DCut GCut (fun _ _ => True) opt a b (set_fl s false) P eq_refl) as (gs & s' & e & E & Q); [cbn; tauto|cbn; intros; tauto|reflexivity|]. exists gs, s', e. split; [exact E|apply post_flag; exact Q].
  - intros opt a b s P. cbn [first_err on_stack]. destruct (flat_ok (DBrace g) (GGoal g) (fun _ J => gl J g) opt a b (set_fl s false) P eq_refl) as (gs & s' & e & E & Q); [cbn; tauto|cbn; intros; tauto|reflexivity|]. exists gs, s', e. split; [exact E|apply post_flag; exact Q].
  - intros opt a b s (La & Lb & B & H). cbn [first_err on_stack]. exists [GNt p a b], (set_fl s false), []. split; [reflexivity|]. cbn [bl nx fl set_fl]. split; [apply adds_nil|]. split; [exact B|]. split; [exists []; rewrite app_nil_r; reflexivity|]. split; [discriminate|].
    apply piece_goals. intros W J F r. apply one_goal.
Qed.
