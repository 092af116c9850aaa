(** Sequences of constraints and tells. *)
Require Import ZArith List Bool Lia.
Require Import Verif.Heap_Model Verif.FdRange_Model Verif.FdRange_Spec Verif.FdRange_Proofs Verif.FdTell_Model Verif.FdTell_Spec Verif.FdTell_Proofs Verif.FdProp_Model Verif.FdProp_Spec Verif.FdProp_Proofs Verif.FdProp_Engine Verif.FdProp_Cstr Verif.FdProp_Closed Verif.FdProp_Lin.
Import ListNotations.
Open Scope Z_scope.

(** ** Constraints, by what they mean *)
Inductive con :=
  | CEq (x y : nat) | CEqF (x y : nat) | CPlusEq (x : nat) (c : Z) (y : nat)
  | CNeqC (x : nat) (c : Z) | CNeq (x y : nat) | CPlusNeq (x : nat) (c : Z) (y : nat)
  | CLt (x y : nat) | CLe (x y : nat) | CLeC (x : nat) (c : Z) | CGeC (x : nat) (c : Z)
  | CPlusLe (x : nat) (c : Z) (y : nat) | CPlusGe (x : nat) (c : Z) (y : nat)
  | CSum (x y z : nat) | CSum3 (x y z t : nat)
  | CMulC (a : Z) (x y : nat) | CMulCPlus (a : Z) (x y z : nat) | CLin2 (a : Z) (x : nat) (b : Z) (y z : nat)
  | CMulCSum (a : Z) (x y z t : nat) | CLin3 (a : Z) (x : nat) (b : Z) (y z t : nat).
Definition holds (k : con) (g : nat -> Z) : Prop :=
  match k with
  | CEq x y | CEqF x y => g x = g y
  | CPlusEq x c y => g x + c = g y
  | CNeqC x c => g x <> c
  | CNeq x y => g x <> g y
  | CPlusNeq x c y => g x + c <> g y
  | CLt x y => g x < g y
  | CLe x y => g x <= g y
  | CLeC x c => g x <= c
  | CGeC x c => g x >= c
  | CPlusLe x c y => g x + c <= g y
  | CPlusGe x c y => g x + c >= g y
  | CSum x y z => g x + g y = g z
  | CSum3 x y z t => g x + g y + g z = g t
  | CMulC a x y => a * g x = g y
  | CMulCPlus a x y z => a * g x + g y = g z
  | CLin2 a x b y z => a * g x + b * g y = g z
  | CMulCSum a x y z t => a * g x + g y + g z = g t
  | CLin3 a x b y z t => a * g x + b * g y + g z = g t
  end.
(** the frame and the blocks of its user constraint (FdProp_Model) *)
Definition code (k : con) : group :=
  match k with
  | CEq x y => ([AV x; AV y], x_eq_y)
  | CEqF x y => ([AV x; AV y], x_eq_y_F)
  | CPlusEq x c y => ([AV x; AI c; AV y], x_plus_c_eq_y)
  | CNeqC x c => ([AV x; AI c], x_neq_c)
  | CNeq x y => ([AV x; AV y], x_neq_y)
  | CPlusNeq x c y => ([AV x; AI c; AV y], x_plus_c_neq_y)
  | CLt x y => ([AV x; AV y], x_lt_y)
  | CLe x y => ([AV x; AV y], x_lte_y)
  | CLeC x c => ([AV x; AI c], x_lte_c)
  | CGeC x c => ([AV x; AI c], x_gte_c)
  | CPlusLe x c y => ([AV x; AI c; AV y], x_plus_c_lte_y)
  | CPlusGe x c y => ([AV x; AI c; AV y], x_plus_c_gte_y)
  | CSum x y z => ([AV x; AV y; AV z], x_plus_y_eq_z)
  | CSum3 x y z t => ([AV x; AV y; AV z; AV t], x_plus_y_plus_z_eq_t)
  | CMulC a x y => ([AI a; AV x; AV y], ax_eq_y)
  | CMulCPlus a x y z => ([AI a; AV x; AV y; AV z], ax_plus_y_eq_z)
  | CLin2 a x b y z => ([AI a; AV x; AI b; AV y; AV z], ax_plus_by_eq_z)
  | CMulCSum a x y z t => ([AI a; AV x; AV y; AV z; AV t], ax_plus_y_plus_z_eq_t)
  | CLin3 a x b y z t => ([AI a; AV x; AI b; AV y; AV z; AV t], ax_plus_by_plus_z_eq_t)
  end.
Definition cvars_of (k : con) : list nat := flat_map (fun v => match v with AV x => [x] | AI _ => [] end) (fst (code k)).
Notation hi s v := (rmax (frange (s v))).
(** What the int arithmetic and the vectors can hold: constants to 2^30, no product above 2^30, and the domains of a
    disequality fit in a vector. *)
Definition small_c (c : Z) : Prop := - 2 ^ 30 <= c <= 2 ^ 30.
Definition fit (sz : nat) (s : nat -> fdv) (k : con) : Prop :=
  match k with
  | CPlusEq _ c _ | CLeC _ c | CGeC _ c | CPlusLe _ c _ | CPlusGe _ c _ => small_c c
  | CNeqC x c => small_c c /\ hi s x <= vmax sz
  | CNeq x y => hi s x <= vmax sz /\ hi s y <= vmax sz
  | CPlusNeq x c y => small_c c /\ hi s x <= vmax sz /\ hi s y <= vmax sz
  | CMulC a x _ | CMulCPlus a x _ _ | CMulCSum a x _ _ _ => 1 <= a <= 2 ^ 30 /\ a * hi s x <= 2 ^ 30
  | CLin2 a x b y _ | CLin3 a x b y _ _ => 1 <= a <= 2 ^ 30 /\ 1 <= b <= 2 ^ 30 /\ a * hi s x + b * hi s y <= 2 ^ 30
  | _ => True
  end.
Definition below (nv : nat) (k : con) : Prop := forall v, In v (cvars_of k) -> (v < nv)%nat.

(** ** Programs: constraints are posted, variables are restricted (fd_domain, labeling, unification) *)
Inductive op := Post (k : con) | Tell (v : nat) (k : tellk).
Definition says (o : op) (g : nat -> Z) : Prop := match o with Post k => holds k g | Tell v k => in_tell k (g v) end.
Definition op_fit (sz nv : nat) (s : nat -> fdv) (o : op) : Prop :=
  match o with Post k => fit sz s k /\ below nv k | Tell v k => fine sz (s v) k /\ (v < nv)%nat end.
Definition posts_of (l : list op) : list con := flat_map (fun o => match o with Post k => [k] | Tell _ _ => [] end) l.
Section Run.
Variable sz : nat.
Variable junk : list Z.
Variable a : around.
Variable fuel : nat.
Definition exec (s : st) (o : op) : outcome (bool * st) :=
  match o with Post k => post sz junk a fuel s (fst (code k)) (snd (code k)) | Tell v k => tell_post sz junk a fuel s v k end.
Fixpoint run (s : st) (l : list op) : outcome (bool * st) :=
  match l with [] => Ret (true, s) | o :: l => do p <- exec s o; if fst p then run (snd p) l else Ret p end.
End Run.
(** no constraint yet *)
Definition fresh (s : nat -> fdv) (d : Z) : st := St (fun v => Vst (s v) DATE_ALWAYS 0 0 0 (fun _ => [])) [] None 0 d.

(** ** Proofs *)
Section P.
Variable sz : nat.
Lemma con_good nv s (P : (nat -> Z) -> Prop) k : fit sz s k -> below nv k -> (forall g, P g -> holds k g) -> forall b, In b (snd (code k)) -> good sz nv s P (fst (code k), b).
Proof.
  intros F L M. unfold below in L. destruct k; cbn [code fst snd cvars_of flat_map app] in *; cbn [fit holds] in *; unfold small_c in *;
    repeat match goal with H : forall v, In v (?u :: ?l) -> _ |- _ => pose proof (H u (or_introl eq_refl)); assert (forall v, In v l -> (v < nv)%nat) by (intros; apply H; now right); clear H end.
  - apply (x_eq_y_good sz nv s P x y x x); auto.
  - apply (x_eq_y_F_good sz nv s P x y); auto.
  - apply (x_plus_c_eq_y_good sz nv s P x y x x c); auto.
  - apply (x_neq_c_good sz x c); tauto.
  - apply (x_neq_y_good sz x y); tauto.
  - apply (x_plus_c_neq_y_good sz x y c); tauto.
  - apply (x_lt_y_good sz nv s P x y x x); auto.
  - apply (x_lte_y_good sz nv s P x y x x); auto.
  - apply (x_lte_c_good sz nv s P x x x x c); auto.
  - apply (x_gte_c_good sz nv s P x x x x c); auto.
  - apply (x_plus_c_lte_y_good sz nv s P x y x x c); auto.
  - apply (x_plus_c_gte_y_good sz nv s P x y x x c); auto.
  - apply (x_plus_y_eq_z_good sz nv s P x y z x); auto.
  - apply (x_plus_y_plus_z_eq_t_good sz nv s P x y z t); auto.
  - apply (ax_eq_y_good sz nv s P x y x x a 0); try tauto. lia.
  - apply (ax_plus_y_eq_z_good sz nv s P x y z x a 0); try tauto. lia.
  - apply (ax_plus_by_eq_z_good sz nv s P x y z x a b 0); try tauto. lia.
  - apply (ax_plus_y_plus_z_eq_t_good sz nv s P x y z t a 0); try tauto. lia.
  - apply (ax_plus_by_plus_z_eq_t_good sz nv s P x y z t a b 0); try tauto. lia.
Qed.
Lemma con_closed s k : fit sz s k -> closed sz s (code k).
Proof.
  intros F. destruct k; cbn [code fit] in *; unfold small_c in *.
  - apply (x_eq_y_closed sz s x y x x 0). lia.
  - apply x_eq_y_F_closed.
  - now apply (x_plus_c_eq_y_closed sz s x y x x c).
  - apply x_neq_c_closed.
  - apply x_neq_y_closed.
  - apply x_plus_c_neq_y_closed. tauto.
  - apply (x_lt_y_closed sz s x y x x 0). lia.
  - apply (x_lte_y_closed sz s x y x x 0). lia.
  - now apply (x_lte_c_closed sz s x x x x c).
  - now apply (x_gte_c_closed sz s x x x x c).
  - now apply (x_plus_c_lte_y_closed sz s x y x x c).
  - now apply (x_plus_c_gte_y_closed sz s x y x x c).
  - apply (x_plus_y_eq_z_closed sz s x y z x 0). lia.
  - apply (x_plus_y_plus_z_eq_t_closed sz s x y z t 0). lia.
  - apply (ax_eq_y_closed sz s x y x x a 1); try tauto. lia.
  - apply (ax_plus_y_eq_z_closed sz s x y z x a 1); try tauto. lia.
  - apply (ax_plus_by_eq_z_closed sz s x y z x a b); tauto.
  - apply (ax_plus_y_plus_z_eq_t_closed sz s x y z t a 1); try tauto. lia.
  - apply (ax_plus_by_plus_z_eq_t_closed sz s x y z t a b); tauto.
Qed.
Lemma fit_mono s s' k : cvars sz s' -> smaller s' s -> fit sz s k -> fit sz s' k.
Proof.
  intros C Sm F. assert (B : forall v, hi s' v <= hi s v) by (intros v; apply (smaller_bounds sz s' s v C Sm)).
  assert (M : forall c v, 1 <= c -> c * hi s' v <= c * hi s v) by (intros c v Hc; apply mul_mono; [exact Hc|apply B]).
  destruct k; cbn [fit] in *; try exact F; repeat match goal with H : _ /\ _ |- _ => destruct H | |- _ /\ _ => split end; try assumption; try (eapply Z.le_trans; [apply B|assumption]).
  all: pose proof (M a x ltac:(lia)); try (pose proof (M b y ltac:(lia))); lia.
Qed.
Lemma fine_mono s s' v k : cvars sz s -> cvars sz s' -> smaller s' s -> fine sz (s v) k -> fine sz (s' v) k.
Proof.
  intros C C' Sm F. destruct k; cbn [fine] in *; try exact F. split; [tauto|]. intros T. destruct F as [_ F]. pose proof (smaller_bounds sz s' s v C' Sm). destruct (tagv (s v)) eqn:E; [|specialize (F eq_refl); lia].
  destruct (ground_mono sz s s' v C C' (Sm v)) as [G _]; [unfold is_ground; now rewrite E|]. unfold is_ground in G. now rewrite T in G.
Qed.
Lemma op_fit_mono nv s s' o : cvars sz s -> cvars sz s' -> smaller s' s -> op_fit sz nv s o -> op_fit sz nv s' o.
Proof. intros C C' Sm. destruct o; cbn [op_fit]; intros [F L]; (split; [|exact L]); [exact (fit_mono s s' k C' Sm F)|exact (fine_mono s s' v k C C' Sm F)]. Qed.
Lemma mu_mono nv s s' : cvars sz s -> cvars sz s' -> smaller s' s -> (mu nv s' <= mu nv s)%nat.
Proof.
  intros C C' Sm. unfold mu. induction (seq 0 nv) as [|v l IH]; cbn; [lia|]. pose proof (nb_le sz (s v) (s' v) (C v) (C' v) (Sm v)). lia.
Qed.
Lemma fresh_ready s d : cvars sz s -> ready sz [] (fresh s d).
Proof.
  intros C. constructor; cbn.
  - reflexivity.
  - lia.
  - intros v c L. rewrite Z.bits_0. split; [discriminate|congruence].
  - tauto.
  - exact C.
  - intros id c i ch v N. now destruct id.
  - intros id c N. now destruct id.
  - reflexivity.
  - intros id c N. now destruct id.
  - intros c [l [[] _]].
  - intros c [l [[] _]].
Qed.
Hypothesis small : 64 * Z.of_nat sz <= 2 ^ 28.
Variable junk : list Z.
Variable a : around.
Hypothesis J : vok sz junk.
Hypothesis A : around_ok a.
Lemma posted_cons (K : list con) c : posted (map code K) c -> exists k, In k K /\ fst (code k) = fst c /\ In (snd c) (snd (code k)).
Proof. intros [l [H I]]. apply in_map_iff in H. destruct H as [k [E Hk]]. exists k. rewrite E. auto. Qed.
Lemma all_good nv s (P : (nat -> Z) -> Prop) K : (forall k, In k K -> fit sz s k /\ below nv k) -> (forall g, P g -> forall k, In k K -> holds k g) -> forall c, posted (map code K) c -> good sz nv s P c.
Proof.
  intros F M c Hc. destruct (posted_cons _ _ Hc) as [k [I [E1 E2]]]. destruct c as [f b]. cbn [fst snd] in *. subst f. destruct (F k I) as [F1 F2]. apply con_good; auto.
Qed.
Lemma exec_ok nv fuel K s o : ready sz (map code K) s -> (forall k, In k K -> fit sz (store s) k /\ below nv k) -> op_fit sz nv (store s) o -> (mu nv (store s) < fuel)%nat ->
  posts sz s (fun g => (forall k, In k K -> holds k g) /\ says o g) (map code (posts_of [o] ++ K)) (exec sz junk a fuel s o).
Proof.
  intros R F Fo Mu. destruct o as [k|v k]; cbn [exec posts_of flat_map app says op_fit] in *.
  - assert (Gd : forall c, posted ((fst (code k), snd (code k)) :: map code K) c -> good sz nv (store s) (fun g => (forall k, In k K -> holds k g) /\ holds k g) c).
    { rewrite <- (surjective_pairing (code k)). change (code k :: map code K) with (map code (k :: K)). apply all_good; [intros k' [<-|I]; auto|intros g [H1 H2] k' [<-|I]; auto]. }
    cbn [map]. rewrite (surjective_pairing (code k)) at 1. exact (post_ok sz small junk a J A _ _ _ nv fuel _ _ R Gd Mu).
  - apply (tell_post_ok sz small junk a J A _ _ _ nv); auto; try tauto. apply all_good; [exact F|]. intros g [H _]. exact H.
Qed.
Definition keeps (s : st) (P : (nat -> Z) -> Prop) (K : list con) (o : outcome (bool * st)) : Prop :=
  exists ok s', o = Ret (ok, s') /\ (forall v, qmask (vars s' v) = 0) /\
  (ok = false -> forall g, within (store s) g -> P g -> False) /\
  (ok = true -> smaller (store s') (store s) /\ (forall g, within (store s) g -> P g -> within (store s') g) /\ ready sz (map code K) s').
Lemma run_ok nv fuel : forall l K s, ready sz (map code K) s -> (forall k, In k K -> fit sz (store s) k /\ below nv k) -> (forall o, In o l -> op_fit sz nv (store s) o) -> (mu nv (store s) < fuel)%nat ->
  keeps s (fun g => (forall k, In k K -> holds k g) /\ forall o, In o l -> says o g) (rev (posts_of l) ++ K) (run sz junk a fuel s l).
Proof.
  induction l as [|o l IH]; intros K s R F Fl Mu; cbn [run].
  - exists true, s. split; [reflexivity|]. split; [apply R|]. split; [discriminate|]. intros _. split; [now intros v n|]. split; [auto|exact R].
  - destruct (exec_ok nv fuel K s o R F (Fl o (or_introl eq_refl)) Mu) as [ok [s1 [E [Q [N S]]]]]. rewrite E. cbn [bind fst snd]. destruct ok.
    + destruct (S eq_refl) as [C1 [Sm [Ks [_ Rd]]]]. assert (C0 : cvars sz (store s)) by apply R.
      assert (F1 : forall k, In k (posts_of [o] ++ K) -> fit sz (store s) k /\ below nv k).
      { intros k I. apply in_app_or in I. destruct I as [I|I]; [|auto]. destruct o as [k'|]; cbn in I; [|destruct I]. destruct I as [<-|[]]. exact (Fl _ (or_introl eq_refl)). }
      assert (R1 : ready sz (map code (posts_of [o] ++ K)) s1). { apply Rd. intros g I. apply in_map_iff in I. destruct I as [k [<- I]]. apply con_closed, F1, I. }
      destruct (IH (posts_of [o] ++ K) s1 R1) as [ok [s2 [E2 [Q2 [N2 S2]]]]].
      * intros k I. destruct (F1 k I) as [G1 G2]. split; [|exact G2]. apply (fit_mono (store s)); auto.
      * intros o' I. apply (op_fit_mono nv (store s)); auto. apply Fl. now right.
      * pose proof (mu_mono nv _ _ C0 C1 Sm). lia.
      * assert (P1 : forall g, (forall k, In k K -> holds k g) -> says o g -> forall k, In k (posts_of [o] ++ K) -> holds k g).
        { intros g H1 H2 k I. apply in_app_or in I. destruct I as [I|I]; [|auto]. destruct o as [k'|]; cbn in I; [|destruct I]. now destruct I as [<-|[]]. }
        exists ok, s2. split; [exact E2|]. split; [exact Q2|]. split; [|intros Ok; destruct (S2 Ok) as [Sm2 [Ks2 R2]]; split; [|split]].
        -- intros Ok g W [G1 G2]. apply (N2 Ok g); [|split].
           ++ apply Ks; [exact W|]. split; [exact G1|]. apply G2. now left.
           ++ apply P1; [exact G1|]. apply G2. now left.
           ++ intros o' I. apply G2. now right.
        -- intros v n Hn. now apply Sm, Sm2.
        -- intros g W [G1 G2]. apply Ks2; [|split].
           ++ apply Ks; [exact W|]. split; [exact G1|]. apply G2. now left.
           ++ apply P1; [exact G1|]. apply G2. now left.
           ++ intros o' I. apply G2. now right.
        -- replace (rev (posts_of (o :: l)) ++ K) with (rev (posts_of l) ++ posts_of [o] ++ K); [exact R2|]. change (o :: l) with ([o] ++ l). unfold posts_of. rewrite flat_map_app, rev_app_distr, <- app_assoc. f_equal. f_equal. now destruct o.
    + exists false, s1. split; [reflexivity|]. split; [exact Q|]. split; [|discriminate]. intros _ g W [G1 G2]. apply (N eq_refl g W). split; [exact G1|]. apply G2. now left.
Qed.
End P.
