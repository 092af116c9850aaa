(** Proofs about clause indexing (C53). *)
Require Import ZArith List Bool Lia Permutation.
Require Import Verif.Heap_Model Verif.Switch_Model Verif.Switch_Proofs Verif.Index_Model.
Import ListNotations.
Open Scope Z_scope.

(** * Specification *)
(** can a clause of this class match this argument? *)
Definition compat (f : farg) (a : arg0) : bool :=
  match f, a with
  | FVar, _ => true
  | _, ARef => true
  | FInt _, AFdv => true
  | FAtm k, AAtm k' => k =? k'
  | FInt k, AInt k' => k =? k'
  | FLst, ALst => true
  | FStc k, AStc k' => k =? k'
  | _, _ => false
  end.
(** the clauses entered: in the order of the source, each at most once, none that can match
    left out *)
Inductive tried (a : arg0) : list clause -> list Z -> Prop :=
| t_nil : tried a [] []
| t_take : forall ad f l s, tried a l s -> tried a ((ad, f) :: l) (ad :: s)
| t_skip : forall ad f l s, compat f a = false -> tried a l s -> tried a ((ad, f) :: l) s.
Lemma tried_app a l1 s1 l2 s2 : tried a l1 s1 -> tried a l2 s2 -> tried a (l1 ++ l2) (s1 ++ s2).
Proof. intros T. induction T; intros T2; cbn; auto using t_take, t_skip. Qed.
Lemma tried_all a l : tried a l (map fst l).
Proof. induction l as [|[ad f] l IH]; cbn; [constructor|now apply t_take]. Qed.
Lemma tried_flat a (g : farg -> bool) l : (forall f, In f (map snd l) -> compat f a = true -> g f = true) ->
  tried a l (flat_map (fun c => if g (snd c) then [fst c] else []) l).
Proof.
  induction l as [|[ad f] l IH]; intros Hg; cbn [flat_map snd fst]; [constructor|]. assert (IH' := IH (fun f0 I => Hg f0 (or_intror I))).
  destruct (g f) eqn:E; cbn [app]; [now apply t_take|].
  apply t_skip; [|exact IH']. destruct (compat f a) eqn:C; [rewrite (Hg f (or_introl eq_refl) C) in E; discriminate|reflexivity].
Qed.

(** * Groups *)
Section Groups.
Variable leb : Z -> Z -> bool.
Hypothesis leb_total : forall x y, leb x y = true \/ leb y x = true.
Hypothesis leb_anti : forall x y, leb x y = true -> leb y x = true -> x = y.
Hypothesis leb_trans : forall x y z, leb x y = true -> leb y z = true -> leb x z = true.
Definition of_key (k : Z) (l : list (Z * Z)) : list Z := map snd (filter (fun x => fst x =? k) l).
Definition ggood (l : list (Z * Z)) (g : list (list Z * Z)) : Prop :=
  NoDup (map snd g) /\ (forall lad k, In (lad, k) g -> lad <> [] /\ lad = of_key k l) /\ (forall k ad, In (k, ad) l -> In k (map snd g)).
Lemma kins_key k x l : of_key k (kins leb x l) = of_key k (x :: l).
Proof.
  induction l as [|y l IH]; [reflexivity|]. cbn [kins]. destruct (leb (fst x) (fst y)) eqn:E; [reflexivity|].
  unfold of_key in *. cbn [filter] in *. destruct (Z.eqb_spec (fst y) k) as [Ey|Ny].
  - destruct (Z.eqb_spec (fst x) k) as [Ex|Nx].
    + exfalso. rewrite Ex, Ey in E. destruct (leb_total k k); congruence.
    + cbn [map]. now rewrite IH.
  - rewrite IH. reflexivity.
Qed.
Lemma ksort_key k l : of_key k (ksort leb l) = of_key k l.
Proof. induction l as [|x l IH]; [reflexivity|]. cbn [ksort]. rewrite kins_key. unfold of_key in *. cbn [filter]. destruct (fst x =? k); cbn [map]; now rewrite IH. Qed.
Inductive ksorted : list (Z * Z) -> Prop :=
| ks_nil : ksorted []
| ks_cons : forall x l, (forall y, In y l -> leb (fst x) (fst y) = true) -> ksorted l -> ksorted (x :: l).
Lemma ksorted_inv x l : ksorted (x :: l) -> (forall y, In y l -> leb (fst x) (fst y) = true) /\ ksorted l.
Proof. inversion 1; auto. Qed.
Lemma kins_in x y l : In y (kins leb x l) <-> y = x \/ In y l.
Proof. induction l as [|z l IH]; cbn [kins In]; [intuition congruence|]. destruct (leb (fst x) (fst z)); cbn [In]; intuition congruence. Qed.
Lemma kins_sorted x l : ksorted l -> ksorted (kins leb x l).
Proof.
  induction l as [|z l IH]; intros S1; cbn [kins]; [constructor; [intros y []|constructor]|]. inversion S1 as [|? ? Hz Sl]; subst. destruct (leb (fst x) (fst z)) eqn:E.
  - constructor; [|exact S1]. intros y [<-|I]; [exact E|]. exact (leb_trans _ _ _ E (Hz _ I)).
  - constructor; [|auto]. intros y I. apply kins_in in I as [->|I]; [|auto]. destruct (leb_total (fst x) (fst z)); congruence.
Qed.
Lemma ksort_sorted l : ksorted (ksort leb l).
Proof. induction l; cbn [ksort]; [constructor|now apply kins_sorted]. Qed.
Lemma ksort_in y l : In y (ksort leb l) <-> In y l.
Proof. induction l as [|x l IH]; [reflexivity|]. cbn [ksort In]. rewrite kins_in, IH. intuition congruence. Qed.
Lemma of_key_cons k x l : of_key k (x :: l) = (if fst x =? k then [snd x] else []) ++ of_key k l.
Proof. unfold of_key. cbn [filter]. destruct (fst x =? k); reflexivity. Qed.
Lemma group1_good l : ksorted l -> ggood l (group1 l) /\ (forall k ad l', l = (k, ad) :: l' -> exists lad g, group1 l = (lad, k) :: g).
Proof.
  induction l as [|[k ad] l IH]; intros S1; cbn [group1]; [split; [|discriminate]; split; [constructor|]; split; [intros ? ? []|intros ? ? []]|].
  inversion S1 as [|? ? Hx Sl]; subst. destruct (IH Sl) as [[ND [Hg Hk]] Hh]. clear IH. cbn [fst] in Hx.
  destruct (group1 l) as [|[lad k'] g] eqn:Eg.
  - assert (l = []) by (destruct l as [|[k1 a1] l]; [reflexivity|destruct (Hk k1 a1 (or_introl eq_refl))]). subst l. split.
    + split; [constructor; [intros []|constructor]|]. split.
      * intros lad k0 [E|[]]. inversion E; subst. split; [discriminate|]. unfold of_key. cbn [filter fst map snd]. now rewrite Z.eqb_refl.
      * intros k0 a0 [E|[]]. inversion E; subst. now left.
    + intros k0 a0 l' E. inversion E; subst. eauto.
  - destruct (Hg lad k' (or_introl eq_refl)) as [Nl El]. cbn [map snd] in ND. destruct (proj1 (NoDup_cons_iff _ _) ND) as [Nk' NDg].
    destruct (Z.eqb_spec k k') as [->|Nk].
    + split; [|intros k0 a0 l' E; inversion E; subst; eauto]. split; [exact ND|]. split.
      * intros lad0 k0 [E|I].
        -- inversion E; subst lad0 k0. split; [discriminate|]. rewrite of_key_cons. cbn [fst snd]. rewrite Z.eqb_refl. cbn [app]. now rewrite El.
        -- destruct (Hg lad0 k0 (or_intror I)) as [A B]. split; [exact A|]. rewrite of_key_cons. cbn [fst snd].
           destruct (Z.eqb_spec k' k0) as [->|]; [exfalso; apply Nk'; apply in_map_iff; exists (lad0, k0); auto|exact B].
      * intros k0 a0 [E|I]; [inversion E; subst; now left|exact (Hk _ _ I)].
    + assert (Hnew : ~ In k (map snd ((lad, k') :: g))).
      { intros I. apply in_map_iff in I as [[lad0 k0] [E I]]. cbn [snd] in E. subst k0. destruct (Hg lad0 k I) as [A B].
        (* k occurs in l, whose head has key k' : k <= k' <= k *)
        destruct l as [|[k1 a1] l]; [discriminate Eg|]. destruct (Hh k1 a1 l eq_refl) as [lad1 [g1 E1]]. inversion E1; subst lad1 k1 g1.
        apply Nk. apply leb_anti; [exact (Hx (k', a1) (or_introl eq_refl))|].
        destruct (ksorted_inv _ _ Sl) as [Hy _]. rewrite of_key_cons in B. cbn [fst snd] in B.
        destruct (Z.eqb_spec k' k) as [->|]; [congruence|]. cbn [app] in B. destruct lad0 as [|a2 lad0]; [congruence|].
        assert (I2 : In a2 (of_key k l)) by (rewrite <- B; now left). unfold of_key in I2. apply in_map_iff in I2 as [[k3 a3] [_ I3]]. apply filter_In in I3 as [I3 E3].
        cbn [fst] in E3. apply Z.eqb_eq in E3. subst k3. exact (Hy _ I3). }
      split; [|intros k0 a0 l' E; inversion E; subst; eauto]. split; [cbn [map snd]; constructor; [exact Hnew|exact ND]|]. split.
      * intros lad0 k0 [E|I].
        -- inversion E; subst lad0 k0. split; [discriminate|]. rewrite of_key_cons. cbn [fst snd]. rewrite Z.eqb_refl. cbn [app]. f_equal.
           unfold of_key. destruct (filter (fun x => fst x =? k) l) as [|[k3 a3] r] eqn:Ef; [reflexivity|]. exfalso. apply Hnew.
           assert (I3 : In (k3, a3) (filter (fun x => fst x =? k) l)) by (rewrite Ef; now left). apply filter_In in I3 as [I3 E3]. cbn [fst] in E3. apply Z.eqb_eq in E3. subst k3.
           exact (Hk k a3 I3).
        -- destruct (Hg lad0 k0 I) as [A B]. split; [exact A|]. rewrite of_key_cons. cbn [fst snd].
           destruct (Z.eqb_spec k k0) as [->|]; [exfalso; apply Hnew; apply in_map_iff; exists (lad0, k0); auto|exact B].
      * intros k0 a0 [E|I]; [inversion E; subst; now left|right; exact (Hk _ _ I)].
Qed.
Lemma group_good perm l : (forall g, Permutation (perm g) g) -> ggood l (group_by_keys leb perm l).
Proof.
  intros Hp. unfold group_by_keys. destruct (group1_good (ksort leb l) (ksort_sorted l)) as [[ND [Hg Hk]] _]. specialize (Hp (group1 (ksort leb l))). split; [|split].
  - eapply Permutation_NoDup; [symmetry; apply Permutation_map; exact Hp|exact ND].
  - intros lad k I. apply (Permutation_in _ Hp) in I. destruct (Hg lad k I) as [A B]. split; [exact A|]. now rewrite ksort_key in B.
  - intros k ad I. apply (Permutation_in (l := map snd (group1 (ksort leb l)))); [symmetry; now apply Permutation_map|]. apply (Hk k ad). now apply ksort_in.
Qed.
End Groups.

(** * Labels *)
Definition labels (c : list inst) : list Z := flat_map (fun i => match i with Lbl l => [l] | _ => [] end) c.
Lemma labels_app c1 c2 : labels (c1 ++ c2) = labels c1 ++ labels c2. Proof. apply flat_map_app. Qed.
Lemma find_lab_ok l c : forall pre, ~ In l (labels pre) -> find_lab l (pre ++ Lbl l :: c) = Some c.
Proof.
  induction pre as [|i pre IH]; intros N; cbn [app find_lab]; [now rewrite Z.eqb_refl|]. cbn [labels flat_map] in N. rewrite in_app_iff in N.
  destruct i; cbn [In] in N; try (apply IH; tauto). destruct (Z.eqb_spec l l0) as [->|]; [exfalso; apply N; left; now left|apply IH; tauto].
Qed.
Lemma nodup_app_r {A} (a b : list A) : NoDup (a ++ b) -> NoDup b.
Proof. induction a; cbn; auto. inversion 1; auto. Qed.
Lemma nodup_app_l {A} (a b : list A) : NoDup (a ++ b) -> NoDup a.
Proof. induction a as [|x a IH]; cbn; intros N; [apply NoDup_nil|]. inversion N; subst. apply NoDup_cons; [intros I; apply H1; apply in_or_app; now left|auto]. Qed.
Lemma nodup_app_not {A} (a b : list A) x : NoDup (a ++ b) -> In x b -> ~ In x a.
Proof. induction a as [|y a IH]; cbn; intros ND I; [intros []|]. inversion ND; subst. intros [->|J]; [apply H1; apply in_or_app; now right|exact (IH H2 I J)]. Qed.
Lemma nodup_app_intro {A} (a b : list A) : NoDup a -> NoDup b -> (forall x, In x a -> ~ In x b) -> NoDup (a ++ b).
Proof.
  induction a as [|x a IH]; cbn; intros Na Nb D; auto. inversion Na; subst. constructor.
  - rewrite in_app_iff. intros [I|I]; [contradiction|exact (D x (or_introl eq_refl) I)].
  - apply IH; auto.
Qed.

(** * Execution *)
Section Run.
Variable qs : list (Z * Z) -> list (Z * Z).
Variable prog : list inst.
Variable a : arg0.
Hypothesis ND : NoDup (labels prog).
Definition placed (c : list inst) : Prop := exists pre, prog = pre ++ c.
Lemma placed_app c1 c2 : placed (c1 ++ c2) -> placed c2.
Proof. intros [pre E]. exists (pre ++ c1). rewrite <- app_assoc. exact E. Qed.
Lemma placed_cons i c : placed (i :: c) -> placed c. Proof. apply (placed_app [i]). Qed.
Lemma placed_lab l c : placed (Lbl l :: c) -> find_lab l prog = Some c.
Proof.
  intros [pre E]. rewrite E. apply find_lab_ok. rewrite E, labels_app in ND. apply (nodup_app_not _ _ _ ND). cbn [labels flat_map app]. now left.
Qed.
Definition Ex (c : list inst) (st : list (list inst)) (r : list (Z * Z)) : Prop := exists f, exec qs prog a f c st = Ret r.
Definition Fl (st : list (list inst)) (r : list (Z * Z)) : Prop := match st with [] => r = [] | alt :: _ => Ex alt st r end.
Definition Goto (l : Z) (st : list (list inst)) (r : list (Z * Z)) : Prop :=
  if l =? 0 then Fl st r else exists c, find_lab l prog = Some c /\ Ex c st r.
Lemma Ex_lbl l c st r : Ex c st r -> Ex (Lbl l :: c) st r. Proof. intros [f E]. now exists (S f). Qed.
Lemma Ex_tryme l c st r alt : find_lab l prog = Some alt -> Ex c (alt :: st) r -> Ex (TryMe l :: c) st r.
Proof. intros F [f E]. exists (S f). cbn [exec]. now rewrite F. Qed.
Lemma Ex_retryme l c st r alt x : find_lab l prog = Some alt -> Ex c (alt :: st) r -> Ex (RetryMe l :: c) (x :: st) r.
Proof. intros F [f E]. exists (S f). cbn [exec]. now rewrite F. Qed.
Lemma Ex_trustme c st r x : Ex c st r -> Ex (TrustMe :: c) (x :: st) r. Proof. intros [f E]. now exists (S f). Qed.
Lemma Ex_body ad c st r : Fl st r -> Ex (Body ad :: c) st ((ad, Z.of_nat (length st)) :: r).
Proof. destruct st as [|alt st]; cbn [Fl]; [intros ->; now exists 1%nat|]. intros [f E]. exists (S f). cbn [exec]. now rewrite E. Qed.
Lemma Goto_exec l st r : Goto l st r -> exists f, (if l =? 0 then match st with [] => Ret [] | alt :: _ => exec qs prog a f alt st end
   else match find_lab l prog with Some c => exec qs prog a f c st | None => UB end) = Ret r.
Proof.
  unfold Goto. destruct (l =? 0).
  - destruct st as [|alt st]; cbn [Fl]; [intros ->; now exists 0%nat|]. intros [f E]. now exists f.
  - intros [c [F [f E]]]. exists f. now rewrite F.
Qed.
Lemma Ex_try l c st r : l <> 0 -> Goto l (c :: st) r -> Ex (Try l :: c) st r.
Proof. intros N G. destruct (Goto_exec _ _ _ G) as [f E]. destruct (Z.eqb_spec l 0); [contradiction|]. exists (S f). exact E. Qed.
Lemma Ex_retry l c st r x : l <> 0 -> Goto l (c :: st) r -> Ex (Retry l :: c) (x :: st) r.
Proof. intros N G. destruct (Goto_exec _ _ _ G) as [f E]. destruct (Z.eqb_spec l 0); [contradiction|]. exists (S f). exact E. Qed.
Lemma Ex_trust l c st r x : l <> 0 -> Goto l st r -> Ex (Trust l :: c) (x :: st) r.
Proof. intros N G. destruct (Goto_exec _ _ _ G) as [f E]. destruct (Z.eqb_spec l 0); [contradiction|]. exists (S f). exact E. Qed.
Lemma Ex_swterm lv la li ll ls c st r : Goto (Switch_On_Term lv la li ll ls a) st r -> Ex (SwTerm lv la li ll ls :: c) st r.
Proof. intros G. destruct (Goto_exec _ _ _ G) as [f E]. exists (S f). exact E. Qed.

(** events of the clauses [s] entered one after the other, the last one without choice point *)
Fixpoint evl (d : Z) (s : list Z) : list (Z * Z) :=
  match s with [] => [] | [ad] => [(ad, d)] | ad :: s => (ad, d + 1) :: evl d s end.
Lemma evl_fst d s : map fst (evl d s) = s.
Proof. induction s as [|x [|y s] IH]; [reflexivity|reflexivity|]. change (evl d (x :: y :: s)) with ((x, d + 1) :: evl d (y :: s)). cbn [map fst]. now rewrite IH. Qed.
Definition body_ok (ad : Z) : Prop := ad <> 0 /\ exists r, placed (Lbl ad :: Body ad :: r).
Lemma Goto_body ad st r : body_ok ad -> Fl st r -> Goto ad st ((ad, Z.of_nat (length st)) :: r).
Proof.
  intros [N [c P]] F. unfold Goto. destruct (Z.eqb_spec ad 0); [contradiction|]. exists (Body ad :: c). split; [now apply placed_lab|now apply Ex_body].
Qed.
Lemma gen_list1_ok st r : Fl st r -> forall lad rest x, lad <> [] -> (forall ad, In ad lad -> body_ok ad) ->
  Ex (gen_list1 lad ++ rest) (x :: st) (evl (Z.of_nat (length st)) lad ++ r).
Proof.
  intros F. induction lad as [|ad lad IH]; intros rest x Nl Hb; [congruence|]. destruct (Hb ad (or_introl eq_refl)) as [Nz Bd]. destruct lad as [|ad2 lad].
  - cbn [gen_list1 app evl]. apply Ex_trust; [exact Nz|]. apply Goto_body; [now split|exact F].
  - change (gen_list1 (ad :: ad2 :: lad) ++ rest) with (Retry ad :: (gen_list1 (ad2 :: lad) ++ rest)).
    change (evl (Z.of_nat (length st)) (ad :: ad2 :: lad) ++ r) with ((ad, Z.of_nat (length st) + 1) :: (evl (Z.of_nat (length st)) (ad2 :: lad) ++ r)).
    apply Ex_retry; [exact Nz|]. replace (Z.of_nat (length st) + 1) with (Z.of_nat (length ((gen_list1 (ad2 :: lad) ++ rest) :: st))) by (cbn [length]; lia).
    apply Goto_body; [now split|]. cbn [Fl]. apply IH; [discriminate|]. intros; apply Hb; now right.
Qed.
Lemma gen_list_ok lad n lab c n' rest st r : gen_list lad n = (lab, c, n') -> 1 <= n -> placed (c ++ rest) -> (forall ad, In ad lad -> body_ok ad) -> Fl st r ->
  Goto lab st (evl (Z.of_nat (length st)) lad ++ r).
Proof.
  intros E Hn P Hb F. destruct lad as [|ad [|ad2 lad]]; cbn [gen_list] in E; inversion E; subst; clear E.
  - cbn. exact F.
  - cbn [evl app]. apply Goto_body; [apply Hb; now left|exact F].
  - unfold Goto. destruct (Z.eqb_spec lab 0); [lia|]. change ((Lbl lab :: Try ad :: gen_list1 (ad2 :: lad)) ++ rest) with (Lbl lab :: Try ad :: (gen_list1 (ad2 :: lad) ++ rest)) in P.
    exists (Try ad :: (gen_list1 (ad2 :: lad) ++ rest)). split; [now apply placed_lab|].
    destruct (Hb ad (or_introl eq_refl)) as [Nz Bd].
    change (evl (Z.of_nat (length st)) (ad :: ad2 :: lad) ++ r) with ((ad, Z.of_nat (length st) + 1) :: (evl (Z.of_nat (length st)) (ad2 :: lad) ++ r)).
    apply Ex_try; [exact Nz|]. replace (Z.of_nat (length st) + 1) with (Z.of_nat (length ((gen_list1 (ad2 :: lad) ++ rest) :: st))) by (cbn [length]; lia).
    apply Goto_body; [now split|]. cbn [Fl]. apply gen_list1_ok; [exact F|discriminate|]. intros; apply Hb; now right.
Qed.
Lemma gen_list_next lad n lab c n' : gen_list lad n = (lab, c, n') -> n <= n'.
Proof. destruct lad as [|ad [|ad2 lad]]; cbn [gen_list]; intros E; inversion E; lia. Qed.
Lemma csl_ok : forall g n t c n' rest, create_switch_list g n = (t, c, n') -> 1 <= n -> placed (c ++ rest) -> map fst t = map snd g /\ n <= n' /\
  forall lad k, In (lad, k) g -> exists lab c1 m m' rest1, In (k, lab) t /\ gen_list lad m = (lab, c1, m') /\ 1 <= m /\ placed (c1 ++ rest1).
Proof.
  induction g as [|[lad k] g IH]; intros n t c n' rest E Hn P; cbn [create_switch_list] in E.
  - inversion E; subst. split; [reflexivity|]. split; [lia|]. intros ? ? [].
  - destruct (gen_list lad n) as [[lab c1] n1] eqn:E1. destruct (create_switch_list g n1) as [[t2 c2] n2] eqn:E2. inversion E; subst; clear E.
    pose proof (gen_list_next _ _ _ _ _ E1) as Ln. rewrite <- app_assoc in P. destruct (IH n1 t2 c2 n' rest E2 ltac:(lia) (placed_app _ _ P)) as [A [B C]].
    split; [cbn [map fst snd]; now rewrite A|]. split; [lia|]. intros lad0 k0 [Q|I].
    + inversion Q; subst. exists lab, c1, n, n1, (c2 ++ rest). split; [now left|]. auto.
    + destruct (C lad0 k0 I) as [lab0 [c0 [m [m' [r0 [D [F [G I0]]]]]]]]. exists lab0, c0, m, m', r0. split; [now right|]. auto.
Qed.
Lemma csl_next : forall g n t c n', create_switch_list g n = (t, c, n') -> n <= n'.
Proof.
  induction g as [|[lad k] g IH]; intros n0 t c n' E; cbn [create_switch_list] in E; [inversion E; lia|]. destruct (gen_list lad n0) as [[lab c1] m] eqn:E1.
  destruct (create_switch_list g m) as [[t2 c2] m2] eqn:E2. inversion E; subst. apply IH in E2. apply gen_list_next in E1. lia.
Qed.
Lemma gen_switch_next g ins n lab c n' : gen_switch g ins n = (lab, c, n') -> n <= n'.
Proof.
  unfold gen_switch. destruct g as [|[[|ad [|ad2 lad]] k0] [|g1 g]]; intros E; try (inversion E; lia);
    match type of E with context [create_switch_list ?g ?m] => destruct (create_switch_list g m) as [[t c0] n0] eqn:E1 end; apply csl_next in E1; inversion E; lia.
Qed.
(** a jump table that behaves as [assoc] *)
Lemma gen_switch_ok l g ins n lab c n' rest st r k :
  gen_switch g ins n = (lab, c, n') -> ggood l g -> 1 <= n -> placed (c ++ rest) -> (forall ad, In ad (map snd l) -> body_ok ad) -> Fl st r ->
  (forall t c, NoDup (map fst t) -> (forall k lab, In (k, lab) t -> lab <> 0) -> t <> [] -> (forall k, In k (map fst t) -> In k (map fst l)) -> (length t <= length l)%nat ->
     Goto (match assoc t k with Some lab => lab | None => 0 end) st (evl (Z.of_nat (length st)) (of_key k l) ++ r) -> Ex (ins t :: c) st (evl (Z.of_nat (length st)) (of_key k l) ++ r)) ->
  exists s, Goto lab st (evl (Z.of_nat (length st)) s ++ r) /\ (s = of_key k l \/ s = map snd l).
Proof.
  intros E [NDg [Hg Hk]] Hn P Hb F Hins.
  assert (Hlad : forall lad k, In (lad, k) g -> forall ad, In ad lad -> body_ok ad).
  { intros lad k0 I ad Ia. apply Hb. destruct (Hg lad k0 I) as [_ ->]. unfold of_key in Ia. apply in_map_iff in Ia as [x [<- Ix]]. apply filter_In in Ix as [Ix _]. now apply in_map. }
  assert (Case3 : forall t cc, create_switch_list g (n + 1) = (t, cc, n') -> g <> [] -> placed (Lbl n :: ins t :: cc ++ rest) ->
     exists s, Goto n st (evl (Z.of_nat (length st)) s ++ r) /\ (s = of_key k l \/ s = map snd l)).
  { intros t cc Ec Ng P'. destruct (csl_ok g (n + 1) t cc n' rest Ec ltac:(lia) (placed_cons _ _ (placed_cons _ _ P'))) as [Ek [_ Hc]].
    exists (of_key k l). split; [|now left]. unfold Goto. destruct (Z.eqb_spec n 0); [lia|]. exists (ins t :: cc ++ rest). split; [now apply placed_lab|].
    apply Hins.
    - rewrite Ek. exact NDg.
    - intros k0 lab0 I. assert (I2 : In k0 (map snd g)) by (rewrite <- Ek; apply in_map_iff; exists (k0, lab0); auto). apply in_map_iff in I2 as [[lad k1] [Q I2]]. cbn in Q. subst k1.
      destruct (Hc lad k0 I2) as [lab1 [c1 [m [m' [r1 [I1 [Eg [Hm P1]]]]]]]].
      assert (lab1 = lab0). { assert (NDt : NoDup (map fst t)) by (rewrite Ek; exact NDg). pose proof (assoc_in _ _ _ NDt I). pose proof (assoc_in _ _ _ NDt I1). congruence. }
      subst lab1. destruct (Hg lad k0 I2) as [Nl _]. destruct lad as [|ad [|ad2 lad]]; [congruence| |]; cbn [gen_list] in Eg; inversion Eg; subst; [|lia].
      destruct (Hlad [lab0] k0 I2 lab0 (or_introl eq_refl)). auto.
    - intros ->. destruct g; [congruence|discriminate].
    - rewrite Ek. intros k0 I. apply in_map_iff in I as [[lad k1] [Q I]]. cbn in Q. subst k1. destruct (Hg lad k0 I) as [Nl El]. destruct lad as [|ad lad]; [congruence|].
      assert (Ia : In ad (of_key k0 l)) by (rewrite <- El; now left). unfold of_key in Ia. apply in_map_iff in Ia as [[k2 a2] [_ Ix]]. apply filter_In in Ix as [Ix Q].
      cbn in Q. apply Z.eqb_eq in Q. subst k2. apply in_map_iff. exists (k0, a2). auto.
    - rewrite <- (map_length fst t), <- (map_length fst l), Ek. apply NoDup_incl_length; [exact NDg|]. intros k0 I.
      apply in_map_iff in I as [[lad k1] [Q I]]. cbn in Q. subst k1. destruct (Hg lad k0 I) as [Nl El]. destruct lad as [|ad lad]; [congruence|].
      assert (Ia : In ad (of_key k0 l)) by (rewrite <- El; now left). unfold of_key in Ia. apply in_map_iff in Ia as [[k2 a2] [_ Ix]]. apply filter_In in Ix as [Ix Q].
      cbn in Q. apply Z.eqb_eq in Q. subst k2. apply in_map_iff. exists (k0, a2). auto.
    - destruct (assoc t k) as [lab0|] eqn:A.
      + apply assoc_some in A. assert (I2 : In k (map snd g)) by (rewrite <- Ek; apply in_map_iff; exists (k, lab0); auto). apply in_map_iff in I2 as [[lad k1] [Q I2]]. cbn in Q. subst k1.
        destruct (Hc lad k I2) as [lab1 [c1 [m [m' [r1 [I1 [Eg [Hm P1]]]]]]]].
        assert (lab1 = lab0). { assert (NDt : NoDup (map fst t)) by (rewrite Ek; exact NDg). pose proof (assoc_in _ _ _ NDt A). pose proof (assoc_in _ _ _ NDt I1). congruence. }
        subst lab1. destruct (Hg lad k I2) as [_ El]. rewrite <- El. eapply gen_list_ok; eauto.
      + assert (of_key k l = []) as ->.
        { destruct (of_key k l) as [|x y] eqn:Eo; [reflexivity|exfalso]. assert (Ix : In x (of_key k l)) by (rewrite Eo; now left). unfold of_key in Ix.
          apply in_map_iff in Ix as [[k2 a2] [_ Ix]]. apply filter_In in Ix as [Ix Q]. cbn in Q. apply Z.eqb_eq in Q. subst k2.
          assert (I2 : In k (map fst t)) by (rewrite Ek; exact (Hk k a2 Ix)). apply in_map_iff in I2 as [[k3 lab3] [Q I2]]. cbn in Q. subst k3. exact (assoc_none _ _ A _ I2). }
        cbn. exact F. }
  destruct g as [|[[|ad [|ad2 lad]] k0] [|g1 g]]; cbn [gen_switch] in E.
  - inversion E; subst; clear E. exists []. split; [cbn; exact F|]. right. destruct l as [|[k1 a1] l]; [reflexivity|destruct (Hk k1 a1 (or_introl eq_refl))].
  - destruct (Hg [] k0 (or_introl eq_refl)). congruence.
  - destruct (Hg [] k0 (or_introl eq_refl)). congruence.
  - inversion E; subst; clear E. exists [lab]. split; [cbn [evl app]; apply Goto_body; [exact (Hlad [lab] k0 (or_introl eq_refl) lab (or_introl eq_refl))|exact F]|].
    right. destruct (Hg [lab] k0 (or_introl eq_refl)) as [_ ->]. unfold of_key. assert (forall x, In x l -> fst x = k0).
    { intros [k1 a1] I. destruct (Hk k1 a1 I) as [Q|[]]. cbn in *. auto. }
    clear -H. induction l as [|x l IH]; [reflexivity|]. cbn [filter]. rewrite (H x) by now left. rewrite Z.eqb_refl. cbn [map]. f_equal. apply IH. intros; apply H; now right.
  - destruct (create_switch_list (([ad], k0) :: g1 :: g) (n + 1)) as [[t cc] n1] eqn:Ec. inversion E; subst; clear E. exact (Case3 t cc eq_refl ltac:(discriminate) P).
  - destruct (create_switch_list [(ad :: ad2 :: lad, k0)] (n + 1)) as [[t cc] n1] eqn:Ec. inversion E; subst; clear E. exact (Case3 t cc eq_refl ltac:(discriminate) P).
  - destruct (create_switch_list ((ad :: ad2 :: lad, k0) :: g1 :: g) (n + 1)) as [[t cc] n1] eqn:Ec. inversion E; subst; clear E. exact (Case3 t cc eq_refl ltac:(discriminate) P).
Qed.

Lemma gen_insts1_ok st r : Fl st r -> forall lcc n c n' rest x, gen_insts1 lcc n = (c, n') -> lcc <> [] -> placed (c ++ rest) ->
  exists alt, c ++ rest = Lbl n :: alt /\ Ex alt (x :: st) (evl (Z.of_nat (length st)) (map fst lcc) ++ r).
Proof.
  intros F. induction lcc as [|[ad f] lcc IH]; intros n c n' rest x E Nl P; [congruence|]. destruct lcc as [|c2 lcc].
  - cbn [gen_insts1] in E. inversion E; subst. eexists. split; [reflexivity|]. cbn [map fst evl app]. apply Ex_trustme, Ex_lbl. now apply Ex_body.
  - remember (c2 :: lcc) as l2. cbn [gen_insts1] in E. destruct (gen_insts1 l2 (n + 1)) as [c1 n1] eqn:E1.
    assert (c = Lbl n :: RetryMe (n + 1) :: Lbl ad :: Body ad :: c1) by (subst l2; inversion E; reflexivity). subst c. clear E. cbn [app] in P.
    assert (P1 : placed (c1 ++ rest)) by (do 4 apply placed_cons in P; exact P).
    destruct (IH (n + 1) c1 n1 rest (c1 ++ rest) E1 ltac:(subst; discriminate) P1) as [alt [Ea Xa]].
    exists (RetryMe (n + 1) :: Lbl ad :: Body ad :: c1 ++ rest). split; [reflexivity|].
    match goal with |- Ex _ _ ?e => replace e with ((ad, Z.of_nat (length (alt :: st))) :: (evl (Z.of_nat (length st)) (map fst l2) ++ r)) end.
    2:
    { subst l2. cbn [map fst evl app length]. f_equal. f_equal. lia. }
    apply Ex_retryme with (alt := alt); [apply placed_lab; rewrite <- Ea; exact P1|]. apply Ex_lbl, Ex_body. cbn [Fl].
    destruct (IH (n + 1) c1 n1 rest alt E1 ltac:(subst; discriminate) P1) as [alt' [Ea' Xa']]. assert (alt' = alt) by congruence. now subst alt'.
Qed.
Lemma gen_insts_ok lcc n lab c n' rest st r : gen_insts lcc n = (lab, c, n') -> 1 <= n -> (forall ad, In ad (map fst lcc) -> ad <> 0) -> placed (c ++ rest) -> Fl st r ->
  Goto lab st (evl (Z.of_nat (length st)) (map fst lcc) ++ r).
Proof.
  intros E Hn Hz P F. destruct lcc as [|[ad f] [|c2 lcc]]; [cbn in *; inversion E; subst; exact F| |].
  - cbn [gen_insts] in E. inversion E; subst. cbn [map fst evl app]. apply Goto_body; [|exact F]. split; [apply Hz; now left|]. now exists rest.
  - remember (c2 :: lcc) as l2. cbn [gen_insts] in E. destruct (gen_insts1 l2 (n + 1)) as [c1 n1] eqn:E1.
    assert (lab = n /\ c = Lbl n :: TryMe (n + 1) :: Lbl ad :: Body ad :: c1) as [-> ->] by (subst l2; inversion E; auto). clear E. cbn [app] in P.
    assert (P1 : placed (c1 ++ rest)) by (do 4 apply placed_cons in P; exact P).
    destruct (gen_insts1_ok st r F l2 (n + 1) c1 n1 rest [] E1 ltac:(subst; discriminate) P1) as [alt [Ea _]].
    unfold Goto. destruct (Z.eqb_spec n 0); [lia|]. exists (TryMe (n + 1) :: Lbl ad :: Body ad :: c1 ++ rest). split; [now apply placed_lab|].
    match goal with |- Ex _ _ ?e => replace e with ((ad, Z.of_nat (length (alt :: st))) :: (evl (Z.of_nat (length st)) (map fst l2) ++ r)) end.
    2:
    { subst l2. cbn [map fst evl app length]. f_equal. f_equal. lia. }
    apply Ex_tryme with (alt := alt); [apply placed_lab; rewrite <- Ea; exact P1|]. apply Ex_lbl, Ex_body. cbn [Fl].
    destruct (gen_insts1_ok st r F l2 (n + 1) c1 n1 rest alt E1 ltac:(subst; discriminate) P1) as [alt' [Ea' Xa']]. assert (alt' = alt) by congruence. now subst alt'.
Qed.
Lemma gen_insts1_body : forall lcc n c n' rest ad, gen_insts1 lcc n = (c, n') -> placed (c ++ rest) -> In ad (map fst lcc) -> exists r, placed (Lbl ad :: Body ad :: r).
Proof.
  induction lcc as [|[ad f] lcc IH]; intros n c n' rest ad0 E P I; [destruct I|]. destruct lcc as [|c2 lcc].
  - cbn [gen_insts1] in E. inversion E; subst. destruct I as [<-|[]]. cbn [app] in P. do 2 apply placed_cons in P. now exists rest.
  - remember (c2 :: lcc) as l2. cbn [gen_insts1] in E. destruct (gen_insts1 l2 (n + 1)) as [c1 n1] eqn:E1.
    assert (c = Lbl n :: RetryMe (n + 1) :: Lbl ad :: Body ad :: c1) by (subst l2; inversion E; reflexivity). subst c. clear E. cbn [app] in P.
    do 2 apply placed_cons in P. destruct I as [<-|I]; [eexists; exact P|]. do 2 apply placed_cons in P. exact (IH _ _ _ _ _ E1 P I).
Qed.
Lemma gen_insts_body lcc n lab c n' rest ad : gen_insts lcc n = (lab, c, n') -> placed (c ++ rest) -> In ad (map fst lcc) -> exists r, placed (Lbl ad :: Body ad :: r).
Proof.
  intros E P I. destruct lcc as [|[ad0 f] [|c2 lcc]]; [destruct I| |].
  - cbn [gen_insts] in E. inversion E; subst. destruct I as [<-|[]]. eexists. exact P.
  - remember (c2 :: lcc) as l2. cbn [gen_insts] in E. destruct (gen_insts1 l2 (n + 1)) as [c1 n1] eqn:E1.
    assert (c = Lbl n :: TryMe (n + 1) :: Lbl ad0 :: Body ad0 :: c1) by (subst l2; inversion E; auto). subst c. cbn [app] in P.
    do 2 apply placed_cons in P. destruct I as [<-|I]; [eexists; exact P|]. do 2 apply placed_cons in P. exact (gen_insts1_body _ _ _ _ _ _ E1 P I).
Qed.
Lemma Switch_On_Term_ok lv la li ll ls : Switch_On_Term lv la li ll ls a = match a with AInt _ => li | AAtm _ => la | ALst => ll | AStc _ => ls | ARef | AFdv => lv | AFlt => Switch_On_Term lv la li ll ls AFlt end
  /\ (Switch_On_Term lv la li ll ls AFlt = lv \/ Switch_On_Term lv la li ll ls AFlt = 0).
Proof.
  unfold Switch_On_Term. destruct (Z.eqb_spec lv 0), (Z.eqb_spec la 0), (Z.eqb_spec li 0), (Z.eqb_spec ll 0), (Z.eqb_spec ls 0); subst; cbn [negb andb]; destruct a; auto.
Qed.
(** what is asked of the argument and of the keys *)
Definition wf_arg (a : arg0) : Prop := match a with AAtm k | AStc k => 0 <= k | _ => True end.
Definition wf_farg (f : farg) : Prop := match f with FAtm k | FStc k => 0 <= k | FInt k => - 2 ^ 30 <= k < 2 ^ 30 | _ => True end.
Hypothesis qs_ok : forall l, qsorted Switch_Cmp_Int l (qs l).
Hypothesis wf_a : wf_arg a.
Variable leb : Z -> Z -> bool.
Hypothesis leb_total : forall x y, leb x y = true \/ leb y x = true.
Hypothesis leb_anti : forall x y, leb x y = true -> leb y x = true -> x = y.
Hypothesis leb_trans : forall x y z, leb x y = true -> leb y z = true -> leb x z = true.
Variable perm : list (list Z * Z) -> list (list Z * Z).
Hypothesis perm_ok : forall g, Permutation (perm g) g.
Lemma flat_key (p : farg -> option Z) k lcc :
  of_key k (flat_map (fun c => match p (snd c) with Some x => [(x, fst c)] | None => [] end) lcc)
  = flat_map (fun c : clause => if (match p (snd c) with Some x => x =? k | None => false end) then [fst c] else []) lcc.
Proof.
  unfold of_key. induction lcc as [|[ad f] lcc IH]; [reflexivity|]. cbn [flat_map snd fst]. rewrite filter_app, map_app, IH. f_equal. destruct (p f); cbn [filter map fst snd]; [|reflexivity]. destruct (z =? k); reflexivity.
Qed.
Lemma flat_snd (p : farg -> option Z) lcc :
  map snd (flat_map (fun c => match p (snd c) with Some x => [(x, fst c)] | None => [] end) lcc)
  = flat_map (fun c : clause => if (match p (snd c) with Some x => true | None => false end) then [fst c] else []) lcc.
Proof. induction lcc as [|[ad f] lcc IH]; [reflexivity|]. cbn [flat_map snd fst]. rewrite map_app, IH. f_equal. destruct (p f); reflexivity. Qed.
Lemma flat_in (p : farg -> option Z) lcc k ad :
  In (k, ad) (flat_map (fun c : clause => match p (snd c) with Some x => [(x, fst c)] | None => [] end) lcc) -> exists f, In (ad, f) lcc /\ p f = Some k.
Proof.
  intros I. apply in_flat_map in I as [[ad0 f] [I J]]. cbn [snd fst] in J. destruct (p f) eqn:Ep; [|destruct J]. destruct J as [Q|[]]. inversion Q; subst. eauto.
Qed.
Lemma flat_len (p : farg -> option Z) (lcc : list clause) :
  (length (flat_map (fun c => match p (snd c) with Some x => [(x, fst c)] | None => [] end) lcc) <= length lcc)%nat.
Proof. induction lcc as [|[ad f] lcc IH]; [reflexivity|]. cbn [flat_map snd fst]. rewrite app_length. cbn [length]. destruct (p f); cbn [length]; lia. Qed.
Definition pa (f : farg) := match f with FAtm k => Some k | _ => None end.
Definition pi_ (f : farg) := match f with FInt k => Some k | _ => None end.
Definition ps (f : farg) := match f with FStc k => Some k | _ => None end.
Lemma split_atm_p l : split_atm l = flat_map (fun c => match pa (snd c) with Some x => [(x, fst c)] | None => [] end) l.
Proof. unfold split_atm. apply flat_map_ext. intros [ad []]; reflexivity. Qed.
Lemma split_int_p l : split_int l = flat_map (fun c => match pi_ (snd c) with Some x => [(x, fst c)] | None => [] end) l.
Proof. unfold split_int. apply flat_map_ext. intros [ad []]; reflexivity. Qed.
Lemma split_stc_p l : split_stc l = flat_map (fun c => match ps (snd c) with Some x => [(x, fst c)] | None => [] end) l.
Proof. unfold split_stc. apply flat_map_ext. intros [ad []]; reflexivity. Qed.
Lemma Goto_switch t c st r lab (m : outcome (option Z)) ins : m = Ret (assoc t lab) ->
  (forall f, exec qs prog a (S f) (ins :: c) st = do x <- m; let l := match x with Some l => l | None => 0 end in
     if l =? 0 then match st with [] => Ret [] | alt :: _ => exec qs prog a f alt st end
     else match find_lab l prog with Some c => exec qs prog a f c st | None => UB end) ->
  Goto (match assoc t lab with Some l => l | None => 0 end) st r -> Ex (ins :: c) st r.
Proof.
  intros Em He G. destruct (Goto_exec _ _ _ G) as [f E]. exists (S f). rewrite He, Em. cbn [bind]. exact E.
Qed.
Lemma in_no_var (lcc : list clause) f : Forall (fun c => snd c <> FVar) lcc -> In f (map snd lcc) -> f <> FVar.
Proof. intros H0 I. apply in_map_iff in I as [c [<- I]]. exact (proj1 (Forall_forall _ _) H0 c I). Qed.
Lemma mk_indexing2_ok lcc (lev1 : bool) n c n' rest st x r : mk_indexing2 leb perm lcc lev1 n = (c, n') -> 1 <= n ->
  (forall ad f, In (ad, f) lcc -> ad <> 0 /\ wf_farg f) -> Forall (fun c => snd c <> FVar) lcc -> Z.of_nat (length lcc) < 2 ^ 31 ->
  placed (c ++ rest) -> Fl st r ->
  exists s, tried a lcc s /\ Ex (c ++ rest) (if lev1 then x :: st else st) (evl (Z.of_nat (length st)) s ++ r).
Proof.
  intros E Hn Hw Hv Hlen P F. unfold mk_indexing2 in E.
  assert (Main : forall latm catm n1 lint cint n2 llst clst n3 lstc cstc n4 lvar cvar n5 rest,
    gen_switch (group_by_keys leb perm (split_atm lcc)) SwAtm n = (latm, catm, n1) ->
    gen_switch (group_by_keys leb perm (split_int lcc)) SwInt n1 = (lint, cint, n2) ->
    gen_list (split_lst lcc) n2 = (llst, clst, n3) ->
    gen_switch (group_by_keys leb perm (split_stc lcc)) SwStc n3 = (lstc, cstc, n4) ->
    gen_insts lcc n4 = (lvar, cvar, n5) -> placed (SwTerm lvar latm lint llst lstc :: catm ++ cint ++ clst ++ cstc ++ cvar ++ rest) ->
    exists s, tried a lcc s /\ forall c, Ex (SwTerm lvar latm lint llst lstc :: c) st (evl (Z.of_nat (length st)) s ++ r)).
  { clear E P c rest. intros latm catm n1 lint cint n2 llst clst n3 lstc cstc n4 lvar cvar n5 rest Ea Ei El Es Ev P.
    apply placed_cons in P. assert (Pa := P). apply placed_app in P. assert (Pi := P). apply placed_app in P. assert (Pl := P). apply placed_app in P. assert (Ps := P). apply placed_app in P.
    assert (N1 := gen_switch_next _ _ _ _ _ _ Ea). assert (N2 := gen_switch_next _ _ _ _ _ _ Ei).
    assert (N3 : n2 <= n3) by exact (gen_list_next _ _ _ _ _ El).
    assert (N4 := gen_switch_next _ _ _ _ _ _ Es).
    assert (Hz : forall ad, In ad (map fst lcc) -> ad <> 0). { intros ad I. apply in_map_iff in I as [[ad0 f] [<- I]]. exact (proj1 (Hw _ _ I)). }
    assert (Hbody : forall ad, In ad (map fst lcc) -> body_ok ad). { intros ad I. split; [now apply Hz|]. exact (gen_insts_body _ _ _ _ _ _ _ Ev P I). }
    assert (Hflat : forall (p : farg -> option Z) ad, In ad (map snd (flat_map (fun c => match p (snd c) with Some x => [(x, fst c)] | None => [] end) lcc)) -> body_ok ad).
    { intros p ad I. apply Hbody. apply in_map_iff in I as [[k ad0] [<- I]]. apply flat_in in I as [f [I _]]. apply in_map_iff. exists (ad0, f). auto. }
    assert (Hvar : Goto lvar st (evl (Z.of_nat (length st)) (map fst lcc) ++ r)) by exact (gen_insts_ok _ _ _ _ _ _ _ _ Ev ltac:(lia) Hz P F).
    destruct (Switch_On_Term_ok lvar latm lint llst lstc) as [Esw Eflt].
    destruct a as [| | |k|k| |k] eqn:Ear.
    - exists (map fst lcc). split; [apply tried_all|]. intros c. apply Ex_swterm. now rewrite Ear, Esw.
    - exists (map fst lcc). split; [apply tried_all|]. intros c. apply Ex_swterm. now rewrite Ear, Esw.
    - destruct Eflt as [Q|Q].
      + exists (map fst lcc). split; [apply tried_all|]. intros c. apply Ex_swterm. now rewrite Ear, Q.
      + exists []. split.
        * clear -Hv. induction Hv as [|[ad f] l Nf _ IH]; constructor; [|exact IH]. cbn in Nf. now destruct f.
        * intros c. apply Ex_swterm. rewrite Ear, Q. cbn. exact F.
    - pose proof (group_good leb leb_total leb_anti leb_trans perm (split_atm lcc) perm_ok) as G. rewrite split_atm_p in G, Ea.
      destruct (gen_switch_ok _ _ _ _ _ _ _ _ st r k Ea G Hn Pa (Hflat pa) F) as [s [Gs Hs]].
      { intros t c NDt Hl Nt Hk Hle Gt. eapply Goto_switch with (m := Switch_On t k); [|intros f; cbn [exec]; rewrite Ear; reflexivity|exact Gt]. apply Switch_On_ok; [exact NDt| | |exact wf_a].
        - pose proof (flat_len pa lcc). lia.
        - intros k0 c0 I. split; [|exact (Hl _ _ I)]. assert (J := Hk k0 (in_map fst _ _ I)). apply in_map_iff in J as [[k1 ad] [Q J]]. cbn in Q. subst k1.
          apply flat_in in J as [f [J Pf]]. destruct f; inversion Pf; subst. exact (proj2 (Hw _ _ J)). }
      exists s. split; [|intros c; apply Ex_swterm; rewrite Ear, Esw; exact Gs].
      destruct Hs as [->| ->]; [rewrite flat_key; apply (tried_flat _ (fun f => match pa f with Some x => x =? k | None => false end))|rewrite flat_snd; apply (tried_flat _ (fun f => match pa f with Some _ => true | None => false end))]; intros f I C; pose proof (in_no_var _ _ Hv I); destruct f; cbn in *; congruence.
    - pose proof (group_good leb leb_total leb_anti leb_trans perm (split_int lcc) perm_ok) as G. rewrite split_int_p in G, Ei.
      destruct (gen_switch_ok _ _ _ _ _ _ _ _ st r k Ei G ltac:(lia) Pi (Hflat pi_) F) as [s [Gs Hs]].
      { intros t c NDt Hl Nt Hk Hle Gt. eapply Goto_switch with (m := Switch_Ret (qs (switch_cases t)) k); [|intros f; cbn [exec]; rewrite Ear; reflexivity|exact Gt].
        apply Switch_Ret_ok; [exact Nt|exact NDt| |apply qs_ok].
        intros k0 c0 I. assert (J := Hk k0 (in_map fst _ _ I)). apply in_map_iff in J as [[k1 ad] [Q J]]. cbn in Q. subst k1.
        apply flat_in in J as [f [J Pf]]. destruct f; inversion Pf; subst. exact (proj2 (Hw _ _ J)). }
      exists s. split; [|intros c; apply Ex_swterm; rewrite Ear, Esw; exact Gs].
      destruct Hs as [->| ->]; [rewrite flat_key; apply (tried_flat _ (fun f => match pi_ f with Some x => x =? k | None => false end))|rewrite flat_snd; apply (tried_flat _ (fun f => match pi_ f with Some _ => true | None => false end))]; intros f I C; pose proof (in_no_var _ _ Hv I); destruct f; cbn in *; congruence.
    - exists (split_lst lcc). split.
      + assert (split_lst lcc = flat_map (fun c => if (match snd c with FLst => true | _ => false end) then [fst c] else []) lcc) as -> by (apply flat_map_ext; intros [ad []]; reflexivity).
        apply (tried_flat _ (fun f => match f with FLst => true | _ => false end)). intros f I C. pose proof (in_no_var _ _ Hv I). destruct f; cbn in *; congruence.
      + intros c. apply Ex_swterm. rewrite Ear, Esw. apply (gen_list_ok _ _ _ _ _ _ _ _ El ltac:(lia) Pl); [|exact F]. intros ad I. apply Hbody. apply in_flat_map in I as [[ad0 f] [I J]].
        destruct f; cbn in J; try contradiction. destruct J as [<-|[]]. exact (in_map fst _ _ I).
    - pose proof (group_good leb leb_total leb_anti leb_trans perm (split_stc lcc) perm_ok) as G. rewrite split_stc_p in G, Es.
      destruct (gen_switch_ok _ _ _ _ _ _ _ _ st r k Es G ltac:(lia) Ps (Hflat ps) F) as [s [Gs Hs]].
      { intros t c NDt Hl Nt Hk Hle Gt. eapply Goto_switch with (m := Switch_On t k); [|intros f; cbn [exec]; rewrite Ear; reflexivity|exact Gt]. apply Switch_On_ok; [exact NDt| | |exact wf_a].
        - pose proof (flat_len ps lcc). lia.
        - intros k0 c0 I. split; [|exact (Hl _ _ I)]. assert (J := Hk k0 (in_map fst _ _ I)). apply in_map_iff in J as [[k1 ad] [Q J]]. cbn in Q. subst k1.
          apply flat_in in J as [f [J Pf]]. destruct f; inversion Pf; subst. exact (proj2 (Hw _ _ J)). }
      exists s. split; [|intros c; apply Ex_swterm; rewrite Ear, Esw; exact Gs].
      destruct Hs as [->| ->]; [rewrite flat_key; apply (tried_flat _ (fun f => match ps f with Some x => x =? k | None => false end))|rewrite flat_snd; apply (tried_flat _ (fun f => match ps f with Some _ => true | None => false end))]; intros f I C; pose proof (in_no_var _ _ Hv I); destruct f; cbn in *; congruence. }
  destruct (gen_switch (group_by_keys leb perm (split_atm lcc)) SwAtm n) as [[latm catm] n1] eqn:Ea.
  destruct (gen_switch (group_by_keys leb perm (split_int lcc)) SwInt n1) as [[lint cint] n2] eqn:Ei.
  destruct (gen_list (split_lst lcc) n2) as [[llst clst] n3] eqn:El.
  destruct (gen_switch (group_by_keys leb perm (split_stc lcc)) SwStc n3) as [[lstc cstc] n4] eqn:Es.
  destruct (gen_insts lcc n4) as [[lvar cvar] n5] eqn:Ev.
  specialize (Main _ _ _ _ _ _ _ _ _ _ _ _ _ _ _ rest eq_refl Ei El Es Ev).
  assert (Two : c = (if lev1 then [TrustMe] else []) ++ SwTerm lvar latm lint llst lstc :: catm ++ cint ++ clst ++ cstc ++ cvar ->
     exists s, tried a lcc s /\ Ex (c ++ rest) (if lev1 then x :: st else st) (evl (Z.of_nat (length st)) s ++ r)).
  { intros ->. assert (Eq : (SwTerm lvar latm lint llst lstc :: catm ++ cint ++ clst ++ cstc ++ cvar) ++ rest = SwTerm lvar latm lint llst lstc :: catm ++ cint ++ clst ++ cstc ++ cvar ++ rest) by (cbn [app]; now rewrite <- !app_assoc).
    rewrite <- app_assoc in P |- *. rewrite Eq in P |- *. destruct (Main (placed_app _ _ P)) as [s [T Hs]]. exists s. split; [exact T|]. destruct lev1; cbn [app]; [apply Ex_trustme|]; apply Hs. }
  destruct lcc as [|[ad f] [|c2 l2]]; [apply Two; congruence| |apply Two; congruence].
  inversion E; subst. exists [ad]. split; [apply t_take, t_nil|]. cbn [evl app]. destruct lev1; cbn [app]; [apply Ex_trustme|]; now apply Ex_body.
Qed.
Lemma look_ok lcc b v af : look_for_var lcc = (b, v, af) -> Forall (fun c => snd c <> FVar) b /\ lcc = b ++ match v with Some c => c :: af | None => [] end.
Proof.
  revert b v af. induction lcc as [|[ad f] lcc IH]; intros b v af E; cbn [look_for_var] in E; [inversion E; subst; split; [constructor|reflexivity]|].
  destruct f; [inversion E; subst; split; [apply Forall_nil|reflexivity]|..]; destruct (look_for_var lcc) as [[b0 v0] af0]; inversion E; subst; destruct (IH _ _ _ eq_refl) as [A ->];
    (split; [constructor; [discriminate|exact A]|reflexivity]).
Qed.
Lemma mk2_next lcc lev1 n c n' : mk_indexing2 leb perm lcc lev1 n = (c, n') -> n <= n'.
Proof.
  unfold mk_indexing2. intros E.
  destruct (gen_switch (group_by_keys leb perm (split_atm lcc)) SwAtm n) as [[latm catm] n1] eqn:Ea.
  destruct (gen_switch (group_by_keys leb perm (split_int lcc)) SwInt n1) as [[lint cint] n2] eqn:Ei.
  destruct (gen_list (split_lst lcc) n2) as [[llst clst] n3] eqn:El.
  destruct (gen_switch (group_by_keys leb perm (split_stc lcc)) SwStc n3) as [[lstc cstc] n4] eqn:Es.
  destruct (gen_insts lcc n4) as [[lvar cvar] n5] eqn:Ev.
  apply gen_switch_next in Ea, Ei, Es. apply gen_list_next in El.
  assert (n4 <= n5).
  { revert Ev. clear. destruct lcc as [|[ad f] [|c2 l2]]; cbn [gen_insts]; intros E; [inversion E; lia..|]. change (match l2 with [] => _ | _ => _ end) with (gen_insts1 (c2 :: l2) (n4 + 1)) in E.
    assert (G : forall l n c n', gen_insts1 l n = (c, n') -> n <= n').
    { induction l as [|[ad0 f0] l IH]; intros n c n' E0; cbn [gen_insts1] in E0; [inversion E0; lia|]. destruct (gen_insts1 l (n + 1)) as [c1 n1] eqn:E1. apply IH in E1. destruct l; inversion E0; lia. }
    destruct (gen_insts1 (c2 :: l2) (n4 + 1)) as [c1 n1] eqn:E1. apply G in E1. inversion E; lia. }
  destruct lcc as [|[ad f] [|c2 l2]]; inversion E; lia.
Qed.
Lemma Ex_tm (lev1 : bool) l c st x r alt : find_lab l prog = Some alt -> Ex c (alt :: st) r -> Ex (tm lev1 l :: c) (if lev1 then x :: st else st) r.
Proof. intros Fa X. destruct lev1; cbn [tm]; [now apply Ex_retryme with (alt := alt)|now apply Ex_tryme with (alt := alt)]. Qed.
Lemma indexing1_next : forall fuel lcc lev1 n lab c n', indexing1 leb perm fuel lcc lev1 n = Some (lab, c, n') -> lab = n /\ n < n' /\ exists c0, c = Lbl n :: c0.
Proof.
  induction fuel as [|fuel IH]; intros lcc lev1 n lab c n' E; [discriminate|]. cbn [indexing1] in E. cbv zeta in E. destruct (look_for_var lcc) as [[b v] af] eqn:L.
  destruct v as [[ad fv]|].
  - destruct b as [|b0 b].
    + destruct af as [|a0 af]; [inversion E; subst; split; [reflexivity|]; split; [lia|eauto]|].
      destruct (indexing1 leb perm fuel (a0 :: af) true (n + 1)) as [[[l1 c1] n1]|] eqn:E1; [|discriminate]. destruct (IH _ _ _ _ _ _ E1) as [_ [B _]]. inversion E; subst. split; [reflexivity|]. split; [lia|eauto].
    + destruct (mk_indexing2 leb perm (b0 :: b) false (n + 1 + 1)) as [c1 n1] eqn:E1. apply mk2_next in E1. destruct af as [|a0 af].
      * inversion E; subst. split; [reflexivity|]. split; [lia|eauto].
      * destruct (indexing1 leb perm fuel (a0 :: af) true n1) as [[[l2 c2] n2]|] eqn:E2; [|discriminate]. destruct (IH _ _ _ _ _ _ E2) as [_ [B _]]. inversion E; subst. split; [reflexivity|]. split; [lia|eauto].
  - assert (E' : (let '(c, n0) := mk_indexing2 leb perm lcc lev1 (n + 1) in Some (n, Lbl n :: c, n0)) = Some (lab, c, n')) by (destruct b; exact E). clear E.
    destruct (mk_indexing2 leb perm lcc lev1 (n + 1)) as [c1 n1] eqn:E1. apply mk2_next in E1. inversion E'; subst. split; [reflexivity|]. split; [lia|eauto].
Qed.
Lemma indexing1_ok : forall fuel lcc (lev1 : bool) n lab i c n' rest st x r, indexing1 leb perm fuel lcc lev1 n = Some (lab, i :: c, n') -> 1 <= n ->
  (forall ad f, In (ad, f) lcc -> ad <> 0 /\ wf_farg f) -> Z.of_nat (length lcc) < 2 ^ 31 -> placed (c ++ rest) -> Fl st r ->
  exists evs, tried a lcc (map fst evs) /\ Ex (c ++ rest) (if lev1 then x :: st else st) (evs ++ r) /\
    (Forall (fun c => snd c <> FVar) lcc -> evs = evl (Z.of_nat (length st)) (map fst evs)).
Proof.
  induction fuel as [|fuel IH]; intros lcc lev1 n lab i c n' rest st x r E Hn Hw Hlen P F; [discriminate|]. cbn [indexing1] in E. cbv zeta in E. destruct (look_for_var lcc) as [[b v] af] eqn:L.
  destruct (look_ok _ _ _ _ L) as [Hb El]. destruct v as [[ad fv]|].
  - assert (Nv : Forall (fun c => snd c <> FVar) lcc -> False).
    { intros Hv. clear -L Hv. revert b af L. induction Hv as [|[ad0 f0] l N _ IH]; intros b af L; cbn [look_for_var] in L; [discriminate|]. cbn in N.
      destruct f0; [congruence|..]; destruct (look_for_var l) as [[b0 v0] af0]; inversion L; subst; exact (IH _ _ eq_refl). }
    assert (Hw1 : forall ad f, In (ad, f) b -> ad <> 0 /\ wf_farg f) by (intros; apply Hw; rewrite El; apply in_or_app; now left).
    assert (Hw2 : forall ad f, In (ad, f) af -> ad <> 0 /\ wf_farg f) by (intros; apply Hw; rewrite El; apply in_or_app; right; now right).
    assert (Hl : (length b + S (length af) = length lcc)%nat) by (rewrite El, app_length; reflexivity).
    destruct b as [|b0 b].
    + cbn [app] in El. destruct af as [|a0 af].
      * inversion E; subst. clear E. exists [(ad, Z.of_nat (length st))]. split; [apply t_take, t_nil|]. split; [|intros V; destruct (Nv V)].
        cbn [app] in *. destruct lev1; cbn [app]; [apply Ex_trustme|]; now apply Ex_body.
      * destruct (indexing1 leb perm fuel (a0 :: af) true (n + 1)) as [[[l1 c1] n1]|] eqn:E1; [|discriminate]. inversion E; subst. clear E. cbn [app] in P.
        assert (P1 : placed (c1 ++ rest)) by (do 2 apply placed_cons in P; exact P).
        destruct (indexing1_next _ _ _ _ _ _ _ E1) as [-> [_ [c0 ->]]].
        destruct (IH _ _ _ _ _ _ _ rest st (c0 ++ rest) r E1 ltac:(lia) Hw2 ltac:(cbn [length] in *; lia) (placed_cons _ _ P1) F) as [evs [T [X _]]].
        exists ((ad, Z.of_nat (length ((c0 ++ rest) :: st))) :: evs). split; [cbn [map fst]; now apply t_take|]. split; [|intros V; destruct (Nv V)].
        cbn [app]. apply Ex_tm with (alt := c0 ++ rest); [apply placed_lab; exact P1|]. apply Ex_body. cbn [Fl]. exact X.
    + destruct (mk_indexing2 leb perm (b0 :: b) false (n + 1 + 1)) as [c1 n1] eqn:E1. assert (N1 := mk2_next _ _ _ _ _ E1). destruct af as [|a0 af].
      * inversion E; subst. clear E. cbn [app] in P. rewrite <- app_assoc in P. cbn [app] in P. assert (P1 := placed_cons _ _ P). assert (P2 := placed_app _ _ P1).
        assert (F2 : Fl ((TrustMe :: Body ad :: rest) :: st) ((ad, Z.of_nat (length st)) :: r)) by (cbn [Fl]; apply Ex_trustme; now apply Ex_body).
        destruct (mk_indexing2_ok _ _ _ _ _ _ _ [] _ E1 ltac:(lia) Hw1 Hb ltac:(cbn [length] in *; lia) P1 F2) as [s [T X]].
        exists (evl (Z.of_nat (length ((TrustMe :: Body ad :: rest) :: st))) s ++ [(ad, Z.of_nat (length st))]). split; [|split; [|intros V; destruct (Nv V)]].
        -- rewrite map_app, evl_fst. apply tried_app; [exact T|]. apply t_take, t_nil.
        -- cbn [app]. rewrite <- !app_assoc. cbn [app]. apply Ex_tm with (alt := TrustMe :: Body ad :: rest); [apply placed_lab; exact P2|exact X].
      * destruct (indexing1 leb perm fuel (a0 :: af) true n1) as [[[l2 c2] n2]|] eqn:E2; [|discriminate]. inversion E; subst. clear E. cbn [app] in P. rewrite <- app_assoc in P. cbn [app] in P.
        assert (P1 := placed_cons _ _ P). assert (P2 := placed_app _ _ P1). assert (P3 : placed (c2 ++ rest)) by (do 3 apply placed_cons in P2; exact P2).
        destruct (indexing1_next _ _ _ _ _ _ _ E2) as [-> [_ [c0 ->]]].
        destruct (IH _ _ _ _ _ _ _ rest st (c0 ++ rest) r E2 ltac:(lia) Hw2 ltac:(cbn [length] in *; lia) (placed_cons _ _ P3) F) as [evs [T2 [X2 _]]].
        set (alt := RetryMe n1 :: Body ad :: (Lbl n1 :: c0) ++ rest) in *.
        assert (F2 : Fl (alt :: st) ((ad, Z.of_nat (length ((c0 ++ rest) :: st))) :: evs ++ r)).
        { cbn [Fl]. unfold alt. apply Ex_retryme with (alt := c0 ++ rest); [apply placed_lab; exact P3|]. apply Ex_body. cbn [Fl]. exact X2. }
        destruct (mk_indexing2_ok _ _ _ _ _ _ _ [] _ E1 ltac:(lia) Hw1 Hb ltac:(cbn [length] in *; lia) P1 F2) as [s [T X]].
        exists (evl (Z.of_nat (length (alt :: st))) s ++ (ad, Z.of_nat (length ((c0 ++ rest) :: st))) :: evs). split; [|split; [|intros V; destruct (Nv V)]].
        -- rewrite map_app, evl_fst. cbn [map fst]. apply tried_app; [exact T|]. now apply t_take.
        -- cbn [app]. rewrite <- !app_assoc. cbn [app]. apply Ex_tm with (alt := alt); [apply placed_lab; exact P2|exact X].
  - rewrite app_nil_r in El. subst b.
    assert (E' : (let '(c, n0) := mk_indexing2 leb perm lcc lev1 (n + 1) in Some (n, Lbl n :: c, n0)) = Some (lab, i :: c, n')) by (destruct lcc; exact E). clear E.
    destruct (mk_indexing2 leb perm lcc lev1 (n + 1)) as [c1 n1] eqn:E1. inversion E'; subst. clear E'. cbn [app] in P.
    destruct (mk_indexing2_ok _ _ _ _ _ _ _ x _ E1 ltac:(lia) Hw Hb Hlen P F) as [s [T X]].
    exists (evl (Z.of_nat (length st)) s). rewrite evl_fst. split; [exact T|]. split; [|reflexivity]. exact X.
Qed.
End Run.

(** * Labels are distinct *)
Definition lab_in (c : list inst) (ads : list Z) (n n' : Z) : Prop := n <= n' /\ NoDup (labels c) /\ forall l, In l (labels c) -> In l ads \/ n <= l < n'.
Lemma lab_app c1 c2 ads1 ads2 n n1 n2 : lab_in c1 ads1 n n1 -> lab_in c2 ads2 n1 n2 -> (forall x, In x ads1 -> ~ In x ads2) -> (forall x, In x (ads1 ++ ads2) -> x < n) ->
  lab_in (c1 ++ c2) (ads1 ++ ads2) n n2.
Proof.
  intros [A1 [A2 A3]] [B1 [B2 B3]] D L. split; [lia|]. rewrite labels_app. split.
  - apply nodup_app_intro; auto. intros x Ix Iy. apply A3 in Ix. apply B3 in Iy. destruct Ix as [Ix|Ix], Iy as [Iy|Iy]; [exact (D _ Ix Iy)| | |lia].
    + pose proof (L x ltac:(apply in_or_app; now left)). lia.
    + pose proof (L x ltac:(apply in_or_app; now right)). lia.
  - intros l I. apply in_app_or in I as [I|I]; [apply A3 in I|apply B3 in I]; (destruct I as [I|I]; [left; apply in_or_app; tauto|right; lia]).
Qed.
Lemma lab_none c ads n : labels c = [] -> lab_in c ads n n.
Proof. intros E. split; [lia|]. rewrite E. split; [constructor|intros ? []]. Qed.
Lemma lab_cons n c ads n' : lab_in c ads (n + 1) n' -> (forall x, In x ads -> x < n) -> lab_in (Lbl n :: c) ads n n'.
Proof.
  intros [A [B C]] L. split; [lia|]. cbn [labels flat_map app]. split.
  - constructor; [|exact B]. intros I. apply C in I as [I|I]; [apply L in I; lia|lia].
  - intros l [<-|I]; [right; lia|]. apply C in I as [I|I]; [now left|right; lia].
Qed.
Lemma lab_skip i c ads n n' : (forall l, i <> Lbl l) -> lab_in c ads n n' -> lab_in (i :: c) ads n n'.
Proof. intros N H0. unfold lab_in in *. cbn [labels flat_map]. destruct i; try exact H0. destruct (N l eq_refl). Qed.
Lemma lab_ad ad c ads n n' : lab_in c ads n n' -> ~ In ad ads -> ad < n -> lab_in (Lbl ad :: c) (ad :: ads) n n'.
Proof.
  intros [A [B C]] N L. split; [lia|]. cbn [labels flat_map app]. split.
  - constructor; [|exact B]. intros I. apply C in I as [I|I]; [contradiction|lia].
  - intros l [<-|I]; [left; now left|]. apply C in I as [I|I]; [left; now right|right; lia].
Qed.
Lemma gen_list_lab lad n lab c n' : gen_list lad n = (lab, c, n') -> lab_in c [] n n'.
Proof.
  assert (G : forall l, labels (gen_list1 l) = []) by (induction l as [|x [|y l] IH]; [reflexivity|reflexivity|exact IH]).
  destruct lad as [|ad [|ad2 lad]]; cbn [gen_list]; intros E; inversion E; subst; [now apply lab_none|now apply lab_none|].
  apply lab_cons; [|intros ? []]. apply lab_skip; [discriminate|]. exact (lab_none _ _ _ (G (ad2 :: lad))).
Qed.
Lemma csl_lab : forall g n t c n', create_switch_list g n = (t, c, n') -> lab_in c [] n n'.
Proof.
  induction g as [|[lad k] g IH]; intros n t c n' E; cbn [create_switch_list] in E; [inversion E; subst; now apply lab_none|].
  destruct (gen_list lad n) as [[lab c1] n1] eqn:E1. destruct (create_switch_list g n1) as [[t2 c2] n2] eqn:E2. inversion E; subst.
  apply (lab_app c1 c2 [] [] n n1 n'); [exact (gen_list_lab _ _ _ _ _ E1)|exact (IH _ _ _ _ E2)|intros ? []|intros ? []].
Qed.
Lemma gen_switch_lab g ins n lab c n' : (forall t l, ins t <> Lbl l) -> gen_switch g ins n = (lab, c, n') -> lab_in c [] n n'.
Proof.
  intros Hi. unfold gen_switch. destruct g as [|[[|ad [|ad2 lad]] k0] [|g1 g]]; intros E; try (inversion E; subst; now apply lab_none);
    match type of E with context [create_switch_list ?g ?m] => destruct (create_switch_list g m) as [[t c0] n0] eqn:E1 end; apply csl_lab in E1; inversion E; subst;
    (apply lab_cons; [|intros ? []]; apply lab_skip; [apply Hi|exact E1]).
Qed.
Lemma gen_insts1_lab : forall lcc n c n', gen_insts1 lcc n = (c, n') -> NoDup (map fst lcc) -> (forall ad, In ad (map fst lcc) -> ad < n) -> lab_in c (map fst lcc) n n'.
Proof.
  induction lcc as [|[ad f] lcc IH]; intros n c n' E N L; [inversion E; subst; now apply lab_none|]. cbn [map fst] in N. apply NoDup_cons_iff in N as [Na N]. assert (La := L ad (or_introl eq_refl)).
  assert (Ll : forall ad, In ad (map fst lcc) -> ad < n) by (intros; apply L; now right). destruct lcc as [|c2 lcc].
  - cbn [gen_insts1] in E. inversion E; subst. apply lab_cons; [|exact L]. apply lab_skip; [discriminate|]. cbn [map fst]. apply lab_ad; [|intros []|lia]. apply lab_skip; [discriminate|]. now apply lab_none.
  - remember (c2 :: lcc) as l2. cbn [gen_insts1] in E. destruct (gen_insts1 l2 (n + 1)) as [c1 n1] eqn:E1.
    assert (c = Lbl n :: RetryMe (n + 1) :: Lbl ad :: Body ad :: c1 /\ n' = n1) as [-> ->] by (subst l2; inversion E; auto).
    apply lab_cons; [|exact L]. apply lab_skip; [discriminate|]. cbn [map fst]. apply lab_ad; [|exact Na|lia]. apply lab_skip; [discriminate|]. apply (IH _ _ _ E1 N). intros x I. apply Ll in I. lia.
Qed.
Lemma gen_insts_lab lcc n lab c n' : gen_insts lcc n = (lab, c, n') -> NoDup (map fst lcc) -> (forall ad, In ad (map fst lcc) -> ad < n) -> lab_in c (map fst lcc) n n'.
Proof.
  intros E N L. destruct lcc as [|[ad f] [|c2 lcc]]; [inversion E; subst; now apply lab_none| |].
  - cbn [gen_insts] in E. inversion E; subst. cbn [map fst]. apply lab_ad; [|intros []|apply L; now left]. apply lab_skip; [discriminate|]. now apply lab_none.
  - remember (c2 :: lcc) as l2. cbn [map fst] in N. apply NoDup_cons_iff in N as [Na N]. assert (La := L ad (or_introl eq_refl)). cbn [gen_insts] in E. destruct (gen_insts1 l2 (n + 1)) as [c1 n1] eqn:E1.
    assert (c = Lbl n :: TryMe (n + 1) :: Lbl ad :: Body ad :: c1 /\ n' = n1) as [-> ->] by (subst l2; inversion E; auto).
    apply lab_cons; [|exact L]. apply lab_skip; [discriminate|]. cbn [map fst]. apply lab_ad; [|exact Na|lia]. apply lab_skip; [discriminate|].
    apply (gen_insts1_lab _ _ _ _ E1 N). intros x I. specialize (L x (or_intror I)). lia.
Qed.
Section LabIdx.
Variable leb : Z -> Z -> bool.
Variable perm : list (list Z * Z) -> list (list Z * Z).
Lemma mk2_lab lcc (lev1 : bool) n c n' : mk_indexing2 leb perm lcc lev1 n = (c, n') -> NoDup (map fst lcc) -> (forall ad, In ad (map fst lcc) -> ad < n) -> lab_in c (map fst lcc) n n'.
Proof.
  unfold mk_indexing2. intros E N L.
  destruct (gen_switch (group_by_keys leb perm (split_atm lcc)) SwAtm n) as [[latm catm] n1] eqn:Ea.
  destruct (gen_switch (group_by_keys leb perm (split_int lcc)) SwInt n1) as [[lint cint] n2] eqn:Ei.
  destruct (gen_list (split_lst lcc) n2) as [[llst clst] n3] eqn:El.
  destruct (gen_switch (group_by_keys leb perm (split_stc lcc)) SwStc n3) as [[lstc cstc] n4] eqn:Es.
  destruct (gen_insts lcc n4) as [[lvar cvar] n5] eqn:Ev.
  assert (Two : lab_in ((if lev1 then [TrustMe] else []) ++ SwTerm lvar latm lint llst lstc :: catm ++ cint ++ clst ++ cstc ++ cvar) (map fst lcc) n n5).
  { apply gen_switch_lab in Ea, Ei, Es; try discriminate. apply gen_list_lab in El. assert (n <= n4) by (destruct Ea, Ei, El, Es; lia).
    apply gen_insts_lab in Ev; [|exact N|intros x I; specialize (L x I); lia].
    assert (lab_in (catm ++ cint ++ clst ++ cstc ++ cvar) (map fst lcc) n n5).
    { apply (lab_app _ _ [] (map fst lcc) n n1 n5); [exact Ea| |intros ? []|exact L].
      apply (lab_app _ _ [] (map fst lcc) n1 n2 n5); [exact Ei| |intros ? []|intros x I; specialize (L x I); destruct Ea; lia].
      apply (lab_app _ _ [] (map fst lcc) n2 n3 n5); [exact El| |intros ? []|intros x I; specialize (L x I); destruct Ea, Ei; lia].
      apply (lab_app _ _ [] (map fst lcc) n3 n4 n5); [exact Es|exact Ev|intros ? []|intros x I; specialize (L x I); destruct Ea, Ei, El; lia]. }
    destruct lev1; cbn [app]; repeat (apply lab_skip; [discriminate|]); assumption. }
  destruct lcc as [|[ad f] [|c2 l2]]; [inversion E; subst; exact Two| |inversion E; subst; exact Two].
  inversion E; subst. destruct lev1; cbn [app]; repeat (apply lab_skip; [discriminate|]); now apply lab_none.
Qed.
Lemma lab_weak c ads ads' n n' : lab_in c ads n n' -> (forall x, In x ads -> In x ads') -> lab_in c ads' n n'.
Proof. intros [A [B C]] W. split; [exact A|]. split; [exact B|]. intros l I. apply C in I as [I|I]; auto. Qed.
Lemma indexing1_lab : forall fuel lcc (lev1 : bool) n lab c n', indexing1 leb perm fuel lcc lev1 n = Some (lab, c, n') ->
  NoDup (map fst lcc) -> (forall ad, In ad (map fst lcc) -> ad < n) -> lab_in c (map fst lcc) n n'.
Proof.
  induction fuel as [|fuel IH]; intros lcc lev1 n lab c n' E N L; [discriminate|]. cbn [indexing1] in E. cbv zeta in E. destruct (look_for_var lcc) as [[b v] af] eqn:Lk.
  destruct (look_ok _ _ _ _ Lk) as [_ El]. destruct v as [[ad fv]|].
  - rewrite El, map_app in N, L |- *. cbn [map fst] in N, L |- *. assert (N1 : NoDup (map fst b)) by exact (nodup_app_l _ _ N).
    assert (N2 := nodup_app_r _ _ N). apply NoDup_cons_iff in N2 as [Na N2].
    assert (D : forall x, In x (map fst b) -> ~ In x (map fst af)). { intros x I J. exact (nodup_app_not _ _ x N (or_intror J) I). }
    assert (L1 : forall x, In x (map fst b) -> x < n) by (intros; apply L, in_or_app; now left). assert (L2 : forall x, In x (map fst af) -> x < n) by (intros; apply L, in_or_app; right; now right).
    destruct b as [|b0 b].
    + cbn [map app] in *. destruct af as [|a0 af].
      * inversion E; subst. apply lab_cons; [|exact L]. destruct lev1; cbn [app]; repeat (apply lab_skip; [discriminate|]); now apply lab_none.
      * destruct (indexing1 leb perm fuel (a0 :: af) true (n + 1)) as [[[l1 c1] n1]|] eqn:E1; [|discriminate]. inversion E; subst. clear E.
        apply lab_cons; [|exact L]. apply lab_skip; [destruct lev1; discriminate|]. apply lab_skip; [discriminate|].
        apply lab_weak with (ads := map fst (a0 :: af)); [|intros; now right]. apply (IH _ _ _ _ _ _ E1 N2). intros x I. specialize (L2 x I). lia.
    + destruct (mk_indexing2 leb perm (b0 :: b) false (n + 1 + 1)) as [c1 n1] eqn:E1. assert (B1 := mk2_lab _ _ _ _ _ E1 N1 ltac:(intros x I; specialize (L1 x I); lia)).
      assert (Hmain : forall c2 n2, lab_in c2 (map fst af) n1 n2 -> lab_in (Lbl n :: tm lev1 (n + 1) :: c1 ++ Lbl (n + 1) :: c2) (map fst (b0 :: b) ++ ad :: map fst af) n n2).
      { intros c2 n2 B2. apply lab_cons; [|exact L]. apply lab_skip; [destruct lev1; discriminate|]. apply lab_weak with (ads := map fst (b0 :: b) ++ map fst af); [|intros x I; apply in_app_or in I as [I|I]; apply in_or_app; [now left|right; now right]].
        assert (B3 : lab_in (c1 ++ c2) (map fst (b0 :: b) ++ map fst af) (n + 1 + 1) n2).
        { apply (lab_app _ _ _ _ _ n1); [exact B1|exact B2|exact D|]. intros x I. apply in_app_or in I as [I|I]; [specialize (L1 x I)|specialize (L2 x I)]; lia. }
        destruct B3 as [A [B C]]. split; [lia|]. assert (Perm : Permutation (labels (c1 ++ Lbl (n + 1) :: c2)) (n + 1 :: labels (c1 ++ c2))).
        { rewrite !labels_app. cbn [labels flat_map app]. symmetry. apply Permutation_middle. }
        split.
        - eapply Permutation_NoDup; [symmetry; exact Perm|]. constructor; [|exact B]. intros I. apply C in I as [I|I]; [|lia]. apply in_app_or in I as [I|I]; [specialize (L1 _ I)|specialize (L2 _ I)]; lia.
        - intros l I. apply (Permutation_in _ Perm) in I as [<-|I]; [right; lia|]. apply C in I as [I|I]; [now left|right; lia]. }
      destruct af as [|a0 af].
      * inversion E; subst. apply Hmain. repeat (apply lab_skip; [discriminate|]). now apply lab_none.
      * destruct (indexing1 leb perm fuel (a0 :: af) true n1) as [[[l2 c2] n2]|] eqn:E2; [|discriminate]. inversion E; subst. clear E. apply Hmain. repeat (apply lab_skip; [discriminate|]).
        apply (IH _ _ _ _ _ _ E2 N2). intros x I. specialize (L2 x I). destruct B1. lia.
  - assert (E' : (let '(c, n0) := mk_indexing2 leb perm lcc lev1 (n + 1) in Some (n, Lbl n :: c, n0)) = Some (lab, c, n')) by (destruct b; exact E). clear E.
    destruct (mk_indexing2 leb perm lcc lev1 (n + 1)) as [c1 n1] eqn:E1. inversion E'; subst. apply lab_cons; [|exact L].
    apply (mk2_lab _ _ _ _ _ E1 N). intros x I. specialize (L x I). lia.
Qed.
Lemma indexing1_some : forall fuel lcc lev1 n, (length lcc < fuel)%nat -> indexing1 leb perm fuel lcc lev1 n <> None.
Proof.
  induction fuel as [|fuel IH]; intros lcc lev1 n Hl; [lia|]. cbn [indexing1]. cbv zeta. destruct (look_for_var lcc) as [[b v] af] eqn:Lk. destruct (look_ok _ _ _ _ Lk) as [_ El].
  destruct v as [[ad fv]|].
  - assert (length b + S (length af) = length lcc)%nat by (rewrite El, app_length; reflexivity). destruct b as [|b0 b].
    + destruct af as [|a0 af]; [discriminate|]. specialize (IH (a0 :: af) true (n + 1) ltac:(cbn [length] in *; lia)). destruct (indexing1 leb perm fuel (a0 :: af) true (n + 1)) as [[[? ?] ?]|]; [discriminate|congruence].
    + destruct (mk_indexing2 leb perm (b0 :: b) false (n + 1 + 1)) as [c1 n1]. destruct af as [|a0 af]; [discriminate|].
      specialize (IH (a0 :: af) true n1 ltac:(cbn [length] in *; lia)). destruct (indexing1 leb perm fuel (a0 :: af) true n1) as [[[? ?] ?]|]; [discriminate|congruence].
  - assert (forall o : option (Z * list inst * Z), o = (let '(c, n0) := mk_indexing2 leb perm lcc lev1 (n + 1) in Some (n, Lbl n :: c, n0)) -> o <> None) as G by (intros o ->; destruct (mk_indexing2 leb perm lcc lev1 (n + 1)); discriminate).
    destruct b; apply G; reflexivity.
Qed.
End LabIdx.

(** ** Fuel *)
Lemma exec_mono qs prog a : forall f c st r, exec qs prog a f c st = Ret r -> forall f', (f <= f')%nat -> exec qs prog a f' c st = Ret r.
Proof.
  induction f as [|f IH]; intros c st r E f' Hf; [discriminate|]. destruct f' as [|f']; [lia|]. assert (Hf' : (f <= f')%nat) by lia. clear Hf.
  assert (G : forall c st r, exec qs prog a f c st = Ret r -> exec qs prog a f' c st = Ret r) by (intros; eapply IH; eauto). clear IH.
  assert (J : forall l r, (if l =? 0 then match st with [] => Ret [] | alt :: _ => exec qs prog a f alt st end else match find_lab l prog with Some c => exec qs prog a f c st | None => UB end) = Ret r ->
    (if l =? 0 then match st with [] => Ret [] | alt :: _ => exec qs prog a f' alt st end else match find_lab l prog with Some c => exec qs prog a f' c st | None => UB end) = Ret r).
  { intros l r0 E0. destruct (l =? 0); [destruct st; auto|destruct (find_lab l prog); [auto|discriminate]]. }
  destruct c as [|i c]; [discriminate|]. cbn [exec] in E |- *. destruct i.
  - auto.
  - destruct (find_lab l prog); [auto|discriminate].
  - destruct st; [discriminate|]. destruct (find_lab l prog); [auto|discriminate].
  - destruct st; [discriminate|auto].
  - auto.
  - destruct a as [| | |k|k| |k]; try discriminate. destruct (Switch_On t k) as [o| |]; try discriminate. cbn [bind] in *. auto.
  - destruct a as [| | |k|k| |k]; try discriminate. destruct (Switch_Ret (qs (switch_cases t)) k) as [o| |]; try discriminate. cbn [bind] in *. auto.
  - destruct a as [| | |k|k| |k]; try discriminate. destruct (Switch_On t k) as [o| |]; try discriminate. cbn [bind] in *. auto.
  - destruct (find_lab l prog); [auto|discriminate].
  - destruct st; [discriminate|]. destruct (find_lab l prog); [auto|discriminate].
  - destruct st; [discriminate|]. destruct (find_lab l prog); [auto|discriminate].
  - destruct st as [|alt st]; [exact E|]. destruct (exec qs prog a f alt (alt :: st)) as [r0| |] eqn:E0; try discriminate. rewrite (G _ _ _ E0). exact E.
Qed.
