(** Proofs for C59: the code after the allocation does the same. *)
Require Import List Bool Arith Lia Permutation.
Require Import Verif.RegAlloc_Model Verif.RegAlloc_Spec Verif.RegAlloc_Graph Verif.RegAlloc_Assign.
Import ListNotations.

(** * Aliases *)
Lemma NoDup_app : forall (X : Type) (a b : list X), NoDup (a ++ b) <-> NoDup a /\ NoDup b /\ forall x, In x a -> ~ In x b.
Proof.
  intros X. induction a as [|x a IH]; intros b; cbn; [split; [intros H; split; [constructor|split; [exact H|intros ? []]]|tauto]|]. split.
  - intros H. inversion H; subst. apply IH in H3. destruct H3 as (A1 & A2 & A3). rewrite in_app_iff in H2. repeat split; [constructor; tauto|exact A2|]. intros y [<-|Hy]; [tauto|apply A3; exact Hy].
  - intros (H1 & H2 & H3). inversion H1; subst. constructor; [rewrite in_app_iff; intros [Q|Q]; [contradiction|apply (H3 x (or_introl eq_refl) Q)]|]. apply IH. split; [assumption|]. split; [assumption|]. intros y Hy. apply H3. right. exact Hy.
Qed.
Definition sub (al al' : alias) : Prop := forall s, In s al' -> exists s0, In s0 al /\ incl s s0.
Lemma sub_concat : forall al al', sub al al' -> incl (concat al') (concat al).
Proof. intros al al' S x H. apply in_concat in H. destruct H as (s & H1 & H2). destruct (S s H1) as (s0 & H3 & H4). apply in_concat. exists s0. auto. Qed.
Lemma sub_refl : forall al, sub al al.
Proof. intros al s H. exists s. split; [exact H|intros x Hx; exact Hx]. Qed.
Lemma remove_sub : forall al x, NoDup (concat al) -> sub al (remove_aliases_of al x) /\ NoDup (concat (remove_aliases_of al x)) /\ ~ In x (concat (remove_aliases_of al x)).
Proof.
  induction al as [|s al IH]; intros x ND; cbn [remove_aliases_of]; [split; [apply sub_refl|]; split; [constructor|intros []]|].
  cbn in ND. apply NoDup_app in ND. destruct ND as (N1 & N2 & N3). destruct (delete s x) as [s1|] eqn:ED.
  - destruct (delete_some _ _ _ ED) as (D1 & D2 & D3). destruct (D3 N1) as (D4 & D5). assert (NX : ~ In x (concat al)) by (apply N3; exact D1).
    assert (S1 : sub (s :: al) al) by (intros z Hz; exists z; split; [right; exact Hz|intros y Hy; exact Hy]).
    assert (S2 : sub (s :: al) (s1 :: al)). { intros z [<-|Hz]; [exists s; split; [left; reflexivity|intros y Hy; apply D2; auto]|apply S1; exact Hz]. }
    assert (N4 : NoDup (concat (s1 :: al))). { cbn. apply NoDup_app. split; [exact D4|]. split; [exact N2|]. intros y Hy. apply N3. apply D2. auto. }
    assert (N5 : ~ In x (concat (s1 :: al))) by (cbn; rewrite in_app_iff; tauto).
    destruct s1 as [|a [|b s1]]; auto.
  - destruct (IH x N2) as (H1 & H2 & H3). pose proof (delete_none _ _ ED) as NS. split; [|split].
    + intros z [<-|Hz]; [exists s; split; [left; reflexivity|intros y Hy; exact Hy]|]. destruct (H1 z Hz) as (s0 & Q1 & Q2). exists s0. split; [right; exact Q1|exact Q2].
    + cbn. apply NoDup_app. split; [exact N1|]. split; [exact H2|]. intros y Hy Hc. apply (N3 y Hy). apply (sub_concat _ _ H1). exact Hc.
    + cbn. rewrite in_app_iff. tauto.
Qed.
Lemma removes_sub : forall ws al, NoDup (concat al) -> let al' := aliases1 (map w ws) al in sub al al' /\ NoDup (concat al') /\ forall x, In x ws -> ~ In x (concat al').
Proof.
  induction ws as [|z ws IH]; intros al ND; cbn [map aliases1]; [split; [apply sub_refl|]; split; [exact ND|intros x []]|].
  destruct (remove_sub al z ND) as (H1 & H2 & H3). destruct (IH _ H2) as (K1 & K2 & K3). cbn. split; [|split; [exact K2|]].
  - intros s Hs. destruct (K1 s Hs) as (s1 & S1 & S2). destruct (H1 s1 S1) as (s2 & S3 & S4). exists s2. split; [exact S3|]. intros y Hy. apply S4, S2. exact Hy.
  - intros x [<-|Hx]; [|apply K3; exact Hx]. intros Q. apply H3. apply (sub_concat _ _ K1). exact Q.
Qed.
Lemma aliases_reads : forall rd l al, aliases1 (map r rd ++ l) al = aliases1 l al.
Proof. induction rd as [|x rd IH]; intros l al; cbn; auto. Qed.

Lemma add_perm : forall l x, ~ In x l -> Permutation (add l x) (x :: l).
Proof.
  induction l as [|z l IH]; intros x N; cbn; [reflexivity|]. destruct (reg_eqb x z) eqn:E; [exfalso; apply N; left; destruct (reg_eqb_spec x z); congruence|].
  transitivity (z :: x :: l); [constructor; apply IH; intros Q; apply N; right; exact Q|apply perm_swap].
Qed.
Lemma add_alias_ok : forall al x y, NoDup (concat al) -> ~ In y (concat al) -> x <> y ->
  NoDup (concat (add_alias al x y)) /\ (forall z, In z (concat (add_alias al x y)) -> z = x \/ z = y \/ In z (concat al)) /\
  (forall s, In s (add_alias al x y) -> In s al \/ exists s0, (In s0 al \/ s0 = [x]) /\ In x s0 /\ forall z, In z s -> z = y \/ In z s0).
Proof.
  induction al as [|s al IH]; intros x y ND NY NE; cbn [add_alias].
  - split; [|split].
    + cbn. constructor; [intros [Q|[]]; congruence|]. constructor; [intros []|constructor].
    + cbn. intuition auto.
    + intros s [<-|[]]. right. exists [x]. split; [auto|]. split; [left; reflexivity|]. cbn. intuition auto.
  - cbn in ND, NY. apply NoDup_app in ND. destruct ND as (N1 & N2 & N3). rewrite in_app_iff in NY. destruct (elt s x) eqn:EX.
    + apply elt_In in EX. assert (P : Permutation (add s y) (y :: s)) by (apply add_perm; tauto). split; [|split].
      * cbn. apply NoDup_app. split; [apply (Permutation_NoDup (Permutation_sym P)); constructor; tauto|]. split; [exact N2|]. intros z Hz. apply add_In in Hz. destruct Hz as [->|Hz]; [tauto|apply N3; exact Hz].
      * cbn. intros z. rewrite !in_app_iff, add_In. tauto.
      * intros s1 [<-|H]; [|left; right; exact H]. right. exists s. split; [left; left; reflexivity|]. split; [exact EX|]. intros z. rewrite add_In. auto.
    + assert (NX : ~ In x s) by (rewrite <- elt_In, EX; discriminate). destruct (IH x y N2) as (H1 & H2 & H3); [tauto|exact NE|]. split; [|split].
      * cbn. apply NoDup_app. split; [exact N1|]. split; [exact H1|]. intros z Hz Hc. destruct (H2 z Hc) as [->|[->|Q]]; [contradiction|tauto|apply (N3 z Hz Q)].
      * cbn. intros z. rewrite !in_app_iff. intros [Q|Q]; [auto|]. destruct (H2 z Q) as [E|[E|E]]; auto.
      * intros s1 [<-|H]; [left; left; reflexivity|]. destruct (H3 s1 H) as [Q|(s0 & [Q|Q] & Q2)]; [left; right; exact Q|right; exists s0; split; [left; right; exact Q|exact Q2]|right; exists s0; auto].
Qed.

(** * One instruction *)
Lemma wr_zero : forall i rd lost wr, effect_of i = Op rd lost wr -> forall p, In p wr -> snd p = 0.
Proof.
  intros [t a|t a|k x|t a|x|t a|k x|k x1 x|k x t|t|k t|k n|t|k t|k stop ret l|k] rd lost wr E p H; cbn in E; try discriminate E; injection E as <- <- <-;
    try (destruct ret); cbn in H; repeat (destruct H as [<-|H]; [reflexivity|]); destruct H.
Qed.
Lemma stop_lost : forall i, alias_stop_instruction i = lost_by i.
Proof. intros [t a|t a|k x|t a|x|t a|k x|k x1 x|k x t|t|k t|k n|t|k t|k stop ret l|k]; reflexivity. Qed.
Lemma inst_parts : forall i, match effect_of i with
  | Copy x y => reads_of i = [x] /\ writes_of i = [y] /\ lost_by i = false
  | Op rd lost wr => reads_of i = rd /\ writes_of i = map fst wr /\ lost_by i = lost
  end.
Proof. intros i. unfold reads_of, writes_of, lost_by. destruct (effect_of i); auto. Qed.

Section Sem.
Variable V : Type.
Variable result : list (event V) -> nat -> V.

Lemma writes_same : forall l m v z, (forall p, In p l -> snd p = v) -> writes V m l z = if elt (map fst l) z then v else m z.
Proof.
  induction l as [|[x u] l IH]; intros m v z H; [reflexivity|]. cbn [writes map fst set_elt]. rewrite (IH _ v) by (intros p Hp; apply H; right; exact Hp).
  pose proof (H (x, u) (or_introl eq_refl)) as E. cbn in E. subst u. destruct (elt (map fst l) z); [rewrite orb_true_r; reflexivity|]. rewrite orb_false_r. unfold write.
  destruct (reg_eqb_spec x z) as [->|N]; [rewrite reg_eqb_refl; reflexivity|]. destruct (reg_eqb_spec z x); [congruence|reflexivity].
Qed.
(** the memory and the events after an instruction; [v]: the value it writes *)
Lemma step_spec : forall rest i m tr, exists v m' tr', step V result rest i (m, tr) = (m', tr') /\
  (forall z, In z (writes_of i) -> m' z = v) /\ (forall z, ~ In z (writes_of i) -> lost_by i = false -> m' z = m z) /\
  match effect_of i with
  | Copy x _ => tr' = tr /\ v = m x
  | Op rd _ _ => tr' = (label_of i, map m rd) :: tr /\ v = result tr' 0
  end.
Proof.
  intros rest i m tr. unfold step. pose proof (inst_parts i) as IP. pose proof (wr_zero i) as WZ. destruct (effect_of i) as [x y|rd lost wr]; destruct IP as (_ & R2 & R3); rewrite R2, R3.
  - exists (m x), (write V m y (m x)), tr. split; [reflexivity|]. split; [|split; [|auto]].
    + intros z [<-|[]]. unfold write. rewrite reg_eqb_refl. reflexivity.
    + intros z N _. unfold write. destruct (reg_eqb_spec y z); [exfalso; apply N; left; assumption|reflexivity].
  - set (tr' := (label_of i, map m rd) :: tr). exists (result tr' 0). eexists. exists tr'. split; [reflexivity|].
    assert (E : forall b z, writes V b (map (fun p => (fst p, result tr' (snd p))) wr) z = if elt (map fst wr) z then result tr' 0 else b z).
    { intros b z. rewrite (writes_same _ b (result tr' 0)); [rewrite map_map; reflexivity|]. intros p Hp. apply in_map_iff in Hp. destruct Hp as (q & <- & Hq). cbn. rewrite (WZ _ _ _ eq_refl q Hq). reflexivity. }
    split; [|split; [|auto]].
    + intros z Hz. rewrite E. apply elt_In in Hz. rewrite Hz. reflexivity.
    + intros z Hz ->. rewrite E. destruct (elt (map fst wr) z) eqn:Q; [apply elt_In in Q; contradiction|reflexivity].
Qed.

(** * The aliases are right *)
Definition occurs (x : reg) (pre : list inst) : Prop := exists j, In j pre /\ (In x (reads_of j) \/ In x (writes_of j)).
Definition aliasok (pre : list inst) (al : alias) (m : reg -> V) : Prop :=
  NoDup (concat al) /\ (forall x, In x (concat al) -> occurs x pre) /\ (forall x y, aliased al x y -> m x = m y).
Lemma occurs_app : forall x pre i, occurs x (pre ++ [i]) <-> occurs x pre \/ In x (reads_of i) \/ In x (writes_of i).
Proof.
  intros x pre i. split.
  - intros (j & H & Q). apply in_app_iff in H. destruct H as [H|[<-|[]]]; [left; exists j; auto|auto].
  - intros [(j & H & Q)|H]; [exists j; rewrite in_app_iff; auto|exists i; rewrite in_app_iff; cbn; auto].
Qed.
Lemma alias_step : forall rest i pre al m tr m' tr', (forall x y, effect_of i = Copy x y -> x <> y) -> aliasok pre al m -> step V result rest i (m, tr) = (m', tr') ->
  aliasok (pre ++ [i]) (next_alias i al) m'.
Proof.
  intros rest i pre al m tr m' tr' NC (A1 & A2 & A3) E. unfold next_alias. rewrite stop_lost. destruct (lost_by i) eqn:EL.
  { split; [constructor|]. split; [intros x []|intros x y (s & [] & _)]. }
  destruct (step_spec rest i m tr) as (v & m1 & tr1 & E1 & S1 & S2 & S3). rewrite E in E1. injection E1 as <- <-.
  pose proof (codif_shape i) as CS. pose proof (inst_parts i) as IP. destruct (effect_of i) as [x y|rd lost wr].
  - destruct IP as (R1 & R2 & _). rewrite CS. cbn [aliases1]. destruct (remove_sub al y A1) as (B1 & B2 & B3). specialize (NC x y eq_refl).
    destruct (add_alias_ok _ x y B2 B3 NC) as (C1 & C2 & C3). destruct S3 as (_ & ->). rewrite R2 in *.
    assert (OLD : forall s, In s (remove_aliases_of al y) -> forall a b, In a s -> In b s -> m' a = m' b).
    { intros s Hs a b Ha Hb. assert (NY : forall z, In z s -> ~ In z [y]) by (intros z Hz [<-|[]]; apply B3; apply in_concat; exists s; auto).
      rewrite (S2 a), (S2 b) by auto. destruct (B1 s Hs) as (s0 & Q1 & Q2). apply A3. exists s0. auto. }
    split; [exact C1|]. split.
    + intros z Hz. apply occurs_app. destruct (C2 z Hz) as [->|[->|Q]]; [right; left; rewrite R1; left; reflexivity|right; right; rewrite R2; left; reflexivity|].
      left. apply A2. apply (sub_concat _ _ B1). exact Q.
    + intros a b (s & Hs & Ha & Hb). destruct (C3 s Hs) as [Q|(s0 & Q1 & Q2 & Q3)]; [apply (OLD s); auto|].
      assert (EX : forall z, In z s -> m' z = m x).
      { assert (EXX : m' x = m x) by (apply S2; [intros [Q|[]]; congruence|exact EL]). intros z Hz. destruct (Q3 z Hz) as [->|Hz0]; [apply S1; left; reflexivity|]. rewrite <- EXX.
        destruct Q1 as [Q1| ->]; [apply (OLD s0); auto|]. destruct Hz0 as [->|[]]. reflexivity. }
      rewrite (EX a Ha), (EX b Hb). reflexivity.
  - destruct CS as (ts & CS & IN). destruct IP as (R1 & R2 & _). rewrite CS, aliases_reads. destruct (removes_sub (ts ++ map fst wr) al A1) as (B1 & B2 & B3). cbn zeta in *.
    split; [exact B2|]. split.
    + intros z Hz. apply occurs_app. left. apply A2. apply (sub_concat _ _ B1). exact Hz.
    + intros a b (s & Hs & Ha & Hb). assert (NY : forall z, In z s -> ~ In z (writes_of i)).
      { intros z Hz Hw. apply (B3 z); [rewrite in_app_iff, <- R2; auto|]. apply in_concat. exists s. auto. }
      rewrite (S2 a), (S2 b) by auto. destruct (B1 s Hs) as (s0 & Q1 & Q2). apply A3. exists s0. auto.
Qed.

(** * Registers with the same value after the allocation *)
Variable l : list inst.
Hypothesis GC : good_code l.
Variable opt : nat.
Variable s : binding.
Definition apart (g : list tmp) : Prop := forall u y, I g u y -> s u <> val s y.
Lemma clash_apart : forall g x y, apart g -> clash g x y -> val s x <> val s y.
Proof. intros g x y AP [(t & -> & H)|(t & -> & H)] E; apply (AP t) in H; cbn in E; congruence. Qed.

(** two registers needed at the same time have the same number only when they are aliases *)
Lemma next_aliased : forall i al x y, NoDup (concat al) -> (forall a b, effect_of i = Copy a b -> a <> b) -> ~ In x (writes_of i) -> ~ In y (writes_of i) ->
  x <> y -> aliased (next_alias i al) x y -> aliased al x y.
Proof.
  intros i al x y ND NC NX NY NE H. unfold next_alias in H. destruct (alias_stop_instruction i); [destruct H as (q & [] & _)|].
  pose proof (codif_shape i) as CS. pose proof (inst_parts i) as IP. destruct (effect_of i) as [a b|rd lost wr].
  - destruct IP as (R1 & R2 & _). rewrite R2 in NX, NY. rewrite CS in H. cbn [aliases1] in H. destruct (remove_sub al b ND) as (B1 & B2 & B3).
    destruct (add_alias_ok _ a b B2 B3 (NC a b eq_refl)) as (_ & _ & C3). destruct H as (q & Hq & Hx & Hy).
    assert (OLD : forall q0, In q0 (remove_aliases_of al b) -> In x q0 -> In y q0 -> aliased al x y) by (intros q0 Q1 Q2 Q3; destruct (B1 q0 Q1) as (q1 & Z1 & Z2); exists q1; auto).
    destruct (C3 q Hq) as [Q|(q0 & Q1 & Q2 & Q3)]; [apply (OLD q); auto|].
    assert (HX : In x q0) by (destruct (Q3 x Hx) as [->|Z]; [exfalso; apply NX; left; reflexivity|exact Z]). assert (HY : In y q0) by (destruct (Q3 y Hy) as [->|Z]; [exfalso; apply NY; left; reflexivity|exact Z]).
    destruct Q1 as [Q1| ->]; [apply (OLD q0); auto|]. destruct HX as [<-|[]]. destruct HY as [<-|[]]. congruence.
  - destruct CS as (ts & CS & _). rewrite CS, aliases_reads in H. destruct (removes_sub (ts ++ map fst wr) al ND) as (B1 & _ & _). cbn zeta in *. destruct H as (q & Hq & Hx & Hy).
    destruct (B1 q Hq) as (q1 & Z1 & Z2). exists q1. auto.
Qed.
Lemma next_nodup : forall i al, NoDup (concat al) -> (forall a b, effect_of i = Copy a b -> a <> b) -> NoDup (concat (next_alias i al)).
Proof.
  intros i al ND NC. unfold next_alias. destruct (alias_stop_instruction i); [constructor|].
  pose proof (codif_shape i) as CS. destruct (effect_of i) as [a b|rd lost wr].
  - rewrite CS. cbn [aliases1]. destruct (remove_sub al b ND) as (B1 & B2 & B3). apply (add_alias_ok _ a b B2 B3 (NC a b eq_refl)).
  - destruct CS as (ts & CS & _). rewrite CS, aliases_reads. apply (removes_sub (ts ++ map fst wr) al ND).
Qed.
Lemma eq_alias : forall suf pre al life g, l = pre ++ suf -> create_lst_tmp opt suf al = (life, g) -> apart g -> NoDup (concat al) ->
  forall x y, needed x suf -> needed y suf -> x <> y -> val s x = val s y -> aliased al x y.
Proof.
  induction suf as [|i suf IH]; intros pre al life g EL EC AP AO x y Hx Hy NE EQ; [destruct Hx|].
  cbn [create_lst_tmp] in EC. destruct (create_lst_tmp opt suf (next_alias i al)) as [life1 g1] eqn:E1.
  destruct (create_ginv _ _ _ _ _ E1) as (B1 & B2 & B3 & _). destruct (inst_graph opt i al life1 g1 life g B1 B2 EC) as (C1 & C2 & C3 & C4 & C5 & _ & _).
  assert (L : forall z, needed z (i :: suf) -> In z life) by (intros z [Hz|(H1 & H2)]; apply C4; [auto|]; right; split; [apply B3; exact H2|exact H1]).
  destruct GC as (_ & G). destruct (G pre i suf EL) as (_ & _ & _ & G4).
  assert (DEC : forall z, needed z (i :: suf) -> (In z life1 /\ ~ In z (writes_of i)) \/ ~ (In z life1 /\ ~ In z (writes_of i))).
  { intros z _. destruct (in_dec reg_dec z life1); destruct (in_dec reg_dec z (writes_of i)); tauto. }
  assert (FAR : ~ ((In x life1 /\ ~ In x (writes_of i)) /\ (In y life1 /\ ~ In y (writes_of i))) -> aliased al x y).
  { intros NB. destruct (C5 x y (L x Hx) (L y Hy) NE NB) as [Q|[Q|(a & b & -> & ->)]]; [exfalso; apply (clash_apart g x y AP Q EQ)|exact Q|]. cbn in EQ. congruence. }
  destruct (DEC x Hx) as [(X1 & X2)|NX]; [|apply FAR; tauto]. destruct (DEC y Hy) as [(Y1 & Y2)|NY]; [|apply FAR; tauto].
  apply (next_aliased i al x y AO G4 X2 Y2 NE). apply (IH (pre ++ [i]) (next_alias i al) life1 g1); auto.
  - rewrite EL, <- app_assoc. reflexivity.
  - intros u z H. apply AP. apply (proj1 C3). exact H.
  - apply (next_nodup i al AO G4).
  - apply B3. exact X1.
  - apply B3. exact Y1.
Qed.
Lemma eq_ok : forall suf pre al m life g, l = pre ++ suf -> create_lst_tmp opt suf al = (life, g) -> apart g -> aliasok pre al m ->
  forall x y, needed x suf -> needed y suf -> val s x = val s y -> m x = m y.
Proof.
  intros suf pre al m life g EL EC AP (A1 & A2 & A3) x y Hx Hy EQ. destruct (reg_dec x y) as [->|NE]; [reflexivity|]. apply A3.
  apply (eq_alias suf pre al life g EL EC AP A1 x y Hx Hy NE EQ).
Qed.

(** * The renamed instruction *)
Lemma effect_map : forall i, effect_of (map_inst (val s) i) =
  match effect_of i with Copy x y => Copy (val s x) (val s y) | Op rd lost wr => Op (map (val s) rd) lost (map (fun p => (val s (fst p), snd p)) wr) end.
Proof.
  intros [t a|t a|k x|t a|x|t a|k x|k x1 x|k x t|t|k t|k n|t|k t|k stop ret ar|k]; try reflexivity.
  - cbn. f_equal. rewrite map_map. reflexivity.
  - cbn. f_equal; [|destruct ret; reflexivity]. induction ar as [|[x|k'] ar IH]; cbn; [reflexivity|f_equal; exact IH|exact IH].
Qed.
Lemma label_map : forall i, label_of (map_inst (val s) i) = label_of i.
Proof.
  intros [t a|t a|k x|t a|x|t a|k x|k x1 x|k x t|t|k t|k n|t|k t|k stop ret ar|k]; try reflexivity.
  cbn. f_equal; [destruct ret; reflexivity|]. rewrite map_map. apply map_ext. intros [x|k']; reflexivity.
Qed.
Lemma writes_map : forall i, writes_of (map_inst (val s) i) = map (val s) (writes_of i).
Proof. intros i. unfold writes_of. rewrite effect_map. destruct (effect_of i); [reflexivity|]. rewrite !map_map. reflexivity. Qed.
Lemma lost_map : forall i, lost_by (map_inst (val s) i) = lost_by i.
Proof. intros i. unfold lost_by. rewrite effect_map. destruct (effect_of i); reflexivity. Qed.
Lemma emit_step : forall keep rest i f tr, exists f' tr', run V result rest (emit1 keep i) (f, tr) = (f', tr') /\
  snd (step V result rest i (f, tr)) = tr' /\ forall z, f' z = fst (step V result rest i (f, tr)) z.
Proof.
  intros keep rest i f tr.
  assert (B : exists f' tr', run V result rest [i] (f, tr) = (f', tr') /\ snd (step V result rest i (f, tr)) = tr' /\ forall z, f' z = fst (step V result rest i (f, tr)) z).
  { cbn [run]. destruct (step V result rest i (f, tr)) as [f1 tr1]. exists f1, tr1. auto. }
  assert (CP : forall x y z, reg_eqb x y = true -> f z = write V f x (f y) z).
  { intros x y z E. unfold write. destruct (reg_eqb_spec x y) as [->|N]; [|discriminate E]. destruct (reg_eqb_spec y z) as [->|N]; reflexivity. }
  destruct i as [t a|t a|k x|t a|x|t a|k x|k x1 x|k x t|t|k t|k n|t|k t|k stop ret ar|k]; cbn [emit1]; try exact B.
  - destruct (negb keep && reg_eqb t a) eqn:E; [|exact B]. apply andb_true_iff in E. cbn. exists f, tr. split; [reflexivity|]. split; [reflexivity|]. intros z. apply CP. tauto.
  - destruct (reg_eqb t a) eqn:E; [|exact B]. cbn. eexists. eexists. split; [reflexivity|]. split; [reflexivity|]. intros z. unfold write.
    destruct (reg_eqb_spec t a) as [->|N]; [|discriminate E]. destruct (reg_eqb a z); reflexivity.
  - destruct (negb keep && reg_eqb t a) eqn:E; [|exact B]. apply andb_true_iff in E. cbn. exists f, tr. split; [reflexivity|]. split; [reflexivity|]. intros z. apply CP.
    destruct (reg_eqb_spec t a) as [->|]; [apply reg_eqb_refl|destruct E; discriminate].
Qed.
Lemma run_app : forall rest a b st, run V result rest (a ++ b) st = run V result rest b (run V result rest a st).
Proof. intros rest. induction a as [|i a IH]; intros b st; cbn; auto. Qed.

Lemma last_split : forall (x : reg) ws, In x ws -> exists w1 w2, ws = w1 ++ x :: w2 /\ ~ In x w2.
Proof.
  intros x. induction ws as [|y ws IH]; intros H; [destruct H|]. destruct (in_dec reg_dec x ws) as [Q|Q].
  - destruct (IH Q) as (w1 & w2 & -> & H2). exists (y :: w1), w2. auto.
  - destruct H as [->|H]; [|contradiction]. exists [], ws. auto.
Qed.

(** * Simulation *)
Lemma sim : forall keep rest1 rest2 suf pre al m f tr life g, l = pre ++ suf -> create_lst_tmp opt suf al = (life, g) -> apart g -> aliasok pre al m ->
  (forall x, needed x suf -> f (val s x) = m x) ->
  snd (run V result rest1 suf (m, tr)) = snd (run V result rest2 (emit_code keep (map (map_inst (val s)) suf)) (f, tr)).
Proof.
  intros keep rest1 rest2. induction suf as [|i suf IH]; intros pre al m f tr life g EL EC AP AO SIM; [reflexivity|].
  cbn [map]. unfold emit_code. cbn [flat_map]. rewrite run_app. cbn [run].
  destruct (emit_step keep rest2 (map_inst (val s) i) f tr) as (f2 & tr2 & -> & ET & EF).
  cbn [create_lst_tmp] in EC. destruct (create_lst_tmp opt suf (next_alias i al)) as [life1 g1] eqn:E1.
  destruct (create_ginv _ _ _ _ _ E1) as (B1 & B2 & B3 & _). destruct (inst_graph opt i al life1 g1 life g B1 B2 EC) as (C1 & C2 & C3 & C4 & C5 & C6 & _).
  destruct (proj2 GC pre i suf EL) as (G1 & G2 & G3 & G4).
  destruct (step_spec rest1 i m tr) as (v & m1 & tr1 & ES & S1 & S2 & S3).
  destruct (step_spec rest2 (map_inst (val s) i) f tr) as (v' & f1 & tr1' & ES' & S1' & S2' & S3').
  rewrite ES' in ET, EF. cbn in ET, EF. subst tr1'. rewrite ES. rewrite writes_map in *. rewrite lost_map in *. rewrite effect_map, label_map in S3'.
  assert (RD : forall z, In z (reads_of i) -> f (val s z) = m z) by (intros z Hz; apply SIM; left; exact Hz).
  assert (TV : tr2 = tr1 /\ v' = v).
  { pose proof (inst_parts i) as IP. destruct (effect_of i) as [x y|rd lost wr]; destruct IP as (R1 & R2 & R3).
    - destruct S3 as (-> & ->). destruct S3' as (-> & ->). split; [reflexivity|]. apply RD. rewrite R1. left. reflexivity.
    - assert (EM : map f (map (val s) rd) = map m rd) by (rewrite map_map; apply map_ext_in; intros z Hz; apply RD; rewrite R1; exact Hz).
      destruct S3 as (E3 & ->). destruct S3' as (E3' & ->). rewrite EM in E3'. assert (tr2 = tr1) as -> by congruence. auto. }
  destruct TV as (-> & ->).
  assert (AO1 : aliasok (pre ++ [i]) (next_alias i al) m1) by (apply (alias_step rest1 i pre al m tr m1 tr1); auto).
  assert (EL1 : l = (pre ++ [i]) ++ suf) by (rewrite EL, <- app_assoc; reflexivity).
  assert (AP1 : apart g1) by (intros u z H; apply AP; apply (proj1 C3); exact H).
  apply (IH (pre ++ [i]) (next_alias i al) m1 f2 tr1 life1 g1 EL1 E1 AP1 AO1).
  intros R HR. rewrite EF. destruct (lost_by i) eqn:ELO; [exfalso; apply (G3 eq_refl R HR)|].
  destruct (in_dec reg_dec R (writes_of i)) as [W|NW].
  - rewrite (S1 R W). apply S1'. apply in_map. exact W.
  - rewrite (S2 R NW eq_refl). destruct (in_dec reg_dec (val s R) (map (val s) (writes_of i))) as [Q|Q]; [|rewrite (S2' _ Q eq_refl); apply SIM; right; auto].
    rewrite (S1' _ Q). apply in_map_iff in Q. destruct Q as (x & EX & Hx).
    assert (NEX : x <> R) by congruence.
    assert (LIVE : needed x suf -> v = m R).
    { intros Hn. pose proof (eq_ok suf (pre ++ [i]) (next_alias i al) m1 life1 g1 EL1 E1 AP1 AO1 x R Hn HR EX) as Q. rewrite (S1 x Hx), (S2 R NW eq_refl) in Q. exact Q. }
    destruct (last_split x _ Hx) as (w1 & w2 & EW & N2). destruct (C6 w1 x w2 EW) as [(Q & _)|[(a & ->)|(t & -> & Q)]].
    + apply LIVE. apply B3. exact Q.
    + destruct (G2 a Hx) as [Z|Z]; [apply LIVE; exact Z|]. exfalso. destruct suf as [|j suf]; [destruct Z|]. destruct Z as (Z1 & Z2).
      assert (Zr : reads_of j = [] /\ writes_of j = [A a] /\ lost_by j = false) by (unfold reads_of, writes_of, lost_by; rewrite Z1; auto). destruct Zr as (Z3 & Z4 & Z5).
      destruct HR as [HR|(HR1 & HR2)]; [rewrite Z3 in HR; destruct HR|].
      cbn [create_lst_tmp] in E1. destruct (create_lst_tmp opt suf (next_alias j (next_alias i al))) as [life2 g2] eqn:E2.
      destruct (create_ginv _ _ _ _ _ E2) as (D1 & D2 & _). destruct (inst_graph opt j (next_alias i al) life2 g2 life1 g1 D1 D2 E1) as (_ & _ & D3 & _).
      assert (ND : NoDup (concat (next_alias i al))) by apply AO1.
      assert (AL : aliased (next_alias j (next_alias i al)) (A a) R).
      { apply (eq_alias suf ((pre ++ [i]) ++ [j]) _ life2 g2); auto.
        - rewrite EL1, <- !app_assoc. reflexivity.
        - intros u z H. apply AP1. apply (proj1 D3). exact H.
        - apply next_nodup; [exact ND|]. intros x0 y0 Q0. congruence. }
      unfold next_alias in AL. rewrite stop_lost, Z5 in AL. pose proof (codif_shape j) as CS. rewrite Z1 in CS. destruct CS as (ts & CS & IN).
      rewrite CS, aliases_reads in AL. destruct (removes_sub (ts ++ map fst [(A a, 0)]) (aliases1 (codification i) al)) as (_ & _ & RM).
      { unfold next_alias in ND. rewrite stop_lost, ELO in ND. exact ND. }
      unfold next_alias in AL. rewrite stop_lost, ELO in AL. destruct AL as (q & Q1 & Q2 & _). apply (RM (A a)); [apply in_app_iff; right; left; reflexivity|]. apply in_concat. exists q. auto.
    + assert (NR2 : ~ In R w2) by (intros Z; apply NW; rewrite EW; apply in_app_iff; right; right; exact Z).
      destruct (Q R (proj2 (B3 R) HR) NR2) as [Z|[Z|Z]].
      * rewrite Z in S3. destruct S3 as (_ & ->). reflexivity.
      * exfalso. apply (AP t R Z). exact EX.
      * exfalso. destruct Z as (s0 & Z1 & Z2 & _). destruct AO as (_ & AO2 & _). destruct (AO2 (T t)) as (j & J1 & J2); [apply in_concat; exists s0; auto|].
        destruct (G1 t j Hx J1). tauto.
Qed.
End Sem.

(** * A test for the code, used in the examples *)
Fixpoint neededb (x : reg) (l : list inst) : bool :=
  match l with [] => false | i :: l => elt (reads_of i) x || (negb (elt (writes_of i) x) && neededb x l) end.
Lemma neededb_ok : forall x l, neededb x l = true <-> needed x l.
Proof.
  intros x. induction l as [|i l IH]; cbn; [split; [discriminate|intros []]|]. rewrite orb_true_iff, andb_true_iff, negb_true_iff, elt_In, IH.
  assert (E : elt (writes_of i) x = false <-> ~ In x (writes_of i)) by (rewrite <- elt_In; destruct (elt (writes_of i) x); split; congruence). tauto.
Qed.
Definition is_arg (x : reg) : bool := match x with A _ => true | T _ => false end.
Fixpoint good_from (occ : list reg) (l : list inst) : bool :=
  match l with
  | [] => true
  | i :: l =>
    forallb (fun x => if is_arg x then neededb x l else negb (elt occ x)) (writes_of i) &&
    (negb (lost_by i) || negb (existsb (fun x => neededb x l) (flat_map reads_of l))) &&
    match effect_of i with Copy x y => negb (reg_eqb x y) | _ => true end &&
    good_from (reads_of i ++ writes_of i ++ occ) l
  end.
Definition good_codeb (l : list inst) : bool :=
  negb (existsb (fun x => negb (is_arg x) && neededb x l) (flat_map reads_of l)) && good_from [] l.
Lemma needed_reads : forall x l, needed x l -> In x (flat_map reads_of l).
Proof. intros x. induction l as [|i l IH]; cbn; [tauto|]. rewrite in_app_iff. tauto. Qed.
Lemma existsb_false : forall (X : Type) (f : X -> bool) l x, existsb f l = false -> In x l -> f x = false.
Proof. intros X f l x E H. destruct (f x) eqn:Q; [|reflexivity]. rewrite <- E. symmetry. apply existsb_exists. exists x. auto. Qed.
Lemma good_from_ok : forall l occ, good_from occ l = true -> forall l1 i l2, l = l1 ++ i :: l2 ->
    (forall t, In (T t) (writes_of i) -> ~ In (T t) occ /\ forall j, In j l1 -> ~ In (T t) (reads_of j) /\ ~ In (T t) (writes_of j)) /\
    (forall a, In (A a) (writes_of i) -> needed (A a) l2 \/ written_again a l2) /\
    (lost_by i = true -> forall x, ~ needed x l2) /\
    (forall x y, effect_of i = Copy x y -> x <> y).
Proof.
  induction l as [|k l IH]; intros occ H l1 i l2 E; [destruct l1; discriminate E|]. cbn [good_from] in H. repeat (apply andb_true_iff in H; destruct H as (H & ?)).
  destruct l1 as [|k1 l1]; injection E as -> ->.
  - rewrite forallb_forall in H. split; [|split; [|split]].
    + intros t Ht. split; [|intros j []]. specialize (H _ Ht). cbn in H. rewrite <- elt_In. destruct (elt occ (T t)); [discriminate H|discriminate].
    + intros a Ha. specialize (H _ Ha). cbn in H. left. apply neededb_ok. exact H.
    + intros EL x Hx. rewrite EL in H2. cbn in H2. apply negb_true_iff in H2. pose proof (existsb_false _ _ _ x H2 (needed_reads _ _ Hx)) as Q. cbn in Q. apply neededb_ok in Hx. congruence.
    + intros x y EE ->. rewrite EE, reg_eqb_refl in H1. discriminate H1.
  - destruct (IH _ H0 l1 i l2 eq_refl) as (Q1 & Q2). split; [|exact Q2]. intros t Ht. destruct (Q1 t Ht) as (Q3 & Q4). rewrite !in_app_iff in Q3. split; [tauto|]. intros j [<-|Hj]; [tauto|apply Q4; exact Hj].
Qed.
Lemma good_codeb_ok : forall l, good_codeb l = true -> good_code l.
Proof.
  intros l H. apply andb_true_iff in H. destruct H as (H1 & H2). apply negb_true_iff in H1. split.
  - intros t Ht. pose proof (existsb_false _ _ _ (T t) H1 (needed_reads _ _ Ht)) as Q. cbn in Q. apply neededb_ok in Ht. congruence.
  - intros l1 i l2 E. destruct (good_from_ok l [] H2 l1 i l2 E) as (Q1 & Q2). split; [|exact Q2]. intros t j Ht. apply (Q1 t Ht).
Qed.
