(** Group splits the list of pairs after the first ones. *)
Require Import ZArith List Bool Lia Sorted.
Require Import Verif.Term_Model Verif.Term_Proofs Verif.Heap_Model Verif.Heap_Proofs Verif.Unify_Model Verif.Unify_Spec Verif.Unify_Proofs.
Require Import Verif.Order_Spec Verif.Order_Proofs Verif.Copy_Spec Verif.Copy_Proofs Verif.Copy_Proofs2 Verif.Findall_Proofs.
Require Import Verif.Bagof_Model Verif.Bagof_Spec.
Import ListNotations.
Open Scope Z_scope.

(** a list of values in the cells cs *)
Fixpoint vals (m o : mem) (nil : Z) (cs : list addr) (vs : list term) : Prop :=
  match cs, vs with
  | [], [] => True
  | c :: cs, v :: vs =>
    (exists u, m c = Some (Word u) /\ den o u v) /\
    m (c + 1) = Some (Word (match cs with [] => ATM nil | c' :: _ => LST c' end)) /\ vals m o nil cs vs
  | _, _ => False
  end.
Definition off (cs : list addr) (x : addr) : Prop := Forall (fun c => x <> c /\ x <> c + 1) cs.

Lemma derefs_sub m m' w w' : sub m m' -> derefs m w w' -> derefs m' w w'.
Proof. intros S D. induction D; [apply drf_self|eapply drf_step|apply drf_other]; eauto. Qed.
Lemma vals_agree m m' o nil : forall cs vs, vals m o nil cs vs ->
  (forall c, In c cs -> m' c = m c /\ m' (c + 1) = m (c + 1)) -> vals m' o nil cs vs.
Proof.
  induction cs as [|c cs IH]; intros [|v vs] V A; cbn [vals] in *; auto.
  destruct V as (V1 & V2 & V3). destruct (A c (or_introl eq_refl)) as (-> & ->). split; [exact V1|]. split; [exact V2|].
  apply IH; auto. intros c' I. apply A. now right.
Qed.
Lemma pairs_agree m m' o nil minus : forall cs vs, pairs m o nil minus cs vs ->
  (forall c, In c cs -> m' c = m c /\ m' (c + 1) = m (c + 1)) -> pairs m' o nil minus cs vs.
Proof.
  induction cs as [|c cs IH]; intros [|v vs] V A; cbn [pairs] in *; auto.
  destruct V as (V1 & V2 & V3 & V4). destruct (A c (or_introl eq_refl)) as (-> & ->).
  split; [exact V1|]. split; [exact V2|]. split; [exact V3|].
  apply IH; auto. intros c' I. apply A. now right.
Qed.
Lemma vals_den m o nil : sub o m -> forall cs vs c, vals m o nil (c :: cs) vs -> den m (LST c) (list_term nil vs).
Proof.
  intros S. induction cs as [|c' cs IH]; intros [|v vs] c V; cbn [vals] in V; try tauto.
  - destruct V as ((u & E & D) & E2 & V). destruct vs; [|tauto]. cbn [list_term fold_right]. apply den_lst.
    apply dena_cons with (w := u); [exact E|exact (proj1 (den_sub_both _ _ S) _ _ D)|].
    apply dena_cons with (w := ATM nil); [exact E2|constructor|constructor].
  - destruct V as ((u & E & D) & E2 & V). cbn [list_term fold_right]. apply den_lst.
    apply dena_cons with (w := u); [exact E|exact (proj1 (den_sub_both _ _ S) _ _ D)|].
    apply dena_cons with (w := LST c'); [exact E2| |constructor]. exact (IH vs c' V).
Qed.

Section Loop.
Variables (name : Z -> list Z) (nil minus : Z).
Hypothesis inj : forall i j, name i = name j -> i = j.

Lemma loop_ok o kw k : den o kw k -> nan_free k ->
  forall l cs m c s, sub o m -> separate o (c :: cs) -> pairs m o nil minus (c :: cs) (s :: l) ->
  Forall (fun s => nan_free (kt s)) l ->
  exists l1 l2 cs1 cs2, l = l1 ++ l2 /\ cs = cs1 ++ cs2 /\ length cs1 = length l1 /\
  Forall (fun s' => same_term k (kt s')) l1 /\ match l2 with [] => True | s' :: _ => ~ same_term k (kt s') end /\
  exists F m', (forall fuel, (F <= fuel)%nat -> group_loop name nil fuel m c (pw s) kw =
     Ret (m', match cs2 with [] => None | c' :: _ => Some (LST c') end)) /\
  vals m' o nil (c :: cs1) (map vt (s :: l1)) /\ pairs m' o nil minus cs2 l2 /\
  forall x, off (c :: cs1) x -> m' x = m x.
Proof.
  intros Dk Nk. induction l as [|s' l IH]; intros cs m c s Sb Sp Pa Nf; cbn [pairs] in Pa;
    destruct Pa as ((u & Eu & Du) & (Ef & kw' & vw & Ekw & Dkw & Evw & Dvw) & Ec & Pa); cbn [separate] in Sp; destruct Sp as (O1 & O2 & Fa & Sp);
    set (m1 := store m c (Word vw)); (assert (Sb1 : sub o m1) by (intros x e E; unfold m1; rewrite store_ne by congruence; exact (Sb x e E)));
    (assert (E1 : rd_word m (pw s + 2) = Ret vw) by (unfold rd_word; now rewrite (Sb _ _ Evw)));
    (assert (Ec1 : m1 (c + 1) = m (c + 1)) by (unfold m1; apply store_ne; lia)).
  - destruct cs as [|c' cs]; [|destruct Pa]. exists [], [], [], []. repeat split; auto.
    exists 2%nat, m1. split; [|split; [|split]].
    + intros [|[|fuel]] Hf; try lia. cbn [group_loop]. rewrite E1. cbn [bind]. fold m1. unfold rd_word. rewrite Ec1, Ec.
      cbn [bind deref word_eqb]. now rewrite Z.eqb_refl.
    + cbn [vals map]. split; [|split; [rewrite Ec1; exact Ec|exact I]]. exists vw. split; [apply store_eq|exact Dvw].
    + exact I.
    + intros x Ox. inversion Ox as [|? ? (A & _) _]; subst. unfold m1. now apply store_ne.
  - destruct cs as [|c' cs]; [destruct Pa|]. inversion Nf as [|? ? Nf1 Nf2]; subst.
    assert (Pa0 : pairs m o nil minus (c' :: cs) (s' :: l)) by exact Pa.
    cbn [pairs] in Pa. destruct Pa as ((u' & Eu' & Du') & (Ef' & kw1 & vw1 & Ekw1 & Dkw1 & _) & Ec' & Pa).
    assert (Dj : forall c0, In c0 (c' :: cs) -> c0 + 1 < c \/ c + 1 < c0) by (apply Forall_forall; exact Fa).
    assert (Ag : forall c0, In c0 (c' :: cs) -> m1 c0 = m c0 /\ m1 (c0 + 1) = m (c0 + 1)).
    { intros c0 I. specialize (Dj c0 I). unfold m1. rewrite !store_ne by lia. auto. }
    destruct (derefs_fun m1 u' (STC (pw s')) (derefs_sub _ _ _ _ Sb1 Du')) as (F1 & K1).
    destruct (Term_Compare_correct name m1 kw k (proj1 (den_sub_both _ _ Sb1) _ _ Dk) kw1 (kt s') (proj1 (den_sub_both _ _ Sb1) _ _ Dkw1)) as (F2 & K2).
    assert (St : forall fuel, (2 + F1 + F2 <= fuel)%nat -> group_loop name nil (S fuel) m c (pw s) kw =
      if negb (tcmp name k (kt s') =? 0) then Ret (store m1 (c + 1) (Word (ATM nil)), Some (LST c'))
      else group_loop name nil fuel m1 c' (pw s') kw).
    { intros fuel Hf. cbn [group_loop]. rewrite E1. cbn [bind]. fold m1. unfold rd_word at 1. rewrite Ec1, Ec. cbn [bind].
      assert (Ed : deref fuel m1 (LST c') = Ret (LST c')) by (destruct fuel; [lia|reflexivity]). rewrite Ed. cbn [bind word_eqb].
      unfold rd_word at 1. rewrite (proj1 (Ag c' (or_introl eq_refl))), Eu'. cbn [bind]. rewrite K1 by lia. cbn [bind].
      unfold rd_word at 1. rewrite (Sb1 _ _ Ekw1). cbn [bind]. rewrite K2 by lia. cbn [bind].
      destruct (negb (tcmp name k (kt s') =? 0)); auto. unfold rd_word. now rewrite Ec1, Ec. }
    destruct (Z.eqb_spec (tcmp name k (kt s')) 0) as [Eq|Ne].
    + destruct (IH cs m1 c' s' Sb1 Sp (pairs_agree _ _ _ _ _ _ _ Pa0 Ag) Nf2) as (l1 & l2 & cs1 & cs2 & -> & -> & Ln & Sa & Di & F & m' & R1 & R2 & R3 & R4).
      exists (s' :: l1), l2, (c' :: cs1), cs2. split; [reflexivity|]. split; [reflexivity|]. split; [cbn; lia|].
      split; [constructor; [apply (tcmp_same name inj) in Eq; auto|exact Sa]|]. split; [exact Di|].
      exists (S (2 + F1 + F2 + F)), m'. split; [|split; [|split]].
      * intros [|fuel] Hf; [lia|]. rewrite St by lia. cbn [negb]. apply R1. lia.
      * cbn [map]. cbn [vals]. change (map vt (s' :: l1)) with (vt s' :: map vt l1) in R2.
        assert (Off : forall x, x = c \/ x = c + 1 -> off (c' :: cs1) x).
        { intros x X. unfold off. rewrite Forall_forall. intros c0 I0. specialize (Dj c0).
          assert (In c0 (c' :: cs1 ++ cs2)) by (destruct I0 as [->|I0]; [now left|right; apply in_or_app; auto]). specialize (Dj H). lia. }
        split; [|split; [|exact R2]].
        -- exists vw. split; [|exact Dvw]. rewrite R4 by auto. apply store_eq.
        -- rewrite R4 by auto. rewrite Ec1, Ec. reflexivity.
      * exact R3.
      * intros x Ox. inversion Ox as [|? ? (A & _) Ox']; subst. rewrite R4 by exact Ox'. unfold m1. now apply store_ne.
    + set (m2 := store m1 (c + 1) (Word (ATM nil))).
      exists [], (s' :: l), [], (c' :: cs). split; [reflexivity|]. split; [reflexivity|]. split; [reflexivity|]. split; [constructor|].
      split; [rewrite <- (tcmp_same name inj) by auto; exact Ne|].
      exists (S (2 + F1 + F2)), m2. split; [|split; [|split]].
      * intros [|fuel] Hf; [lia|]. rewrite St by lia. reflexivity.
      * cbn [map vals]. split; [|split; [apply store_eq|exact I]]. exists vw. split; [|exact Dvw].
        unfold m2. rewrite store_ne by lia. apply store_eq.
      * apply (pairs_agree m _ _ _ _ _ _ Pa0). intros c0 I0. specialize (Dj c0 I0). destruct (Ag c0 I0) as (A1 & A2).
        unfold m2. rewrite !store_ne by lia. auto.
      * intros x Ox. inversion Ox as [|? ? (A & B) _]; subst. unfold m2. rewrite store_ne by exact B. unfold m1. now apply store_ne.
Qed.
End Loop.

Lemma bind_mono {A B} (x x' : outcome A) (k k' : A -> outcome B) r :
  (forall v, x = Ret v -> x' = Ret v) -> (forall v s, x = Ret v -> k v = Ret s -> k' v = Ret s) ->
  bind x k = Ret r -> bind x' k' = Ret r.
Proof.
  intros A1 A2. destruct x as [v| |]; cbn [bind]; try discriminate. rewrite (A1 v eq_refl). cbn [bind]. now apply A2.
Qed.
Lemma loop_mono name nil : forall f f', (f <= f')%nat -> forall m lst adr key r,
  group_loop name nil f m lst adr key = Ret r -> group_loop name nil f' m lst adr key = Ret r.
Proof.
  induction f as [|f IH]; intros f' Hf m lst adr key r; [discriminate|]. destruct f' as [|f']; [lia|]. cbn [group_loop].
  apply bind_mono; auto. intros v s _. apply bind_mono; auto. clear s. intros cdr s _. apply bind_mono.
  { intros w E. apply (deref_mono f _ _ _ E); [discriminate|lia]. }
  clear s. intros w s _. destruct (word_eqb w (ATM nil)); auto. destruct w; auto.
  apply bind_mono; auto. clear s. intros car s _. apply bind_mono.
  { intros w E. apply (deref_mono f _ _ _ E); [discriminate|lia]. }
  clear s. intros w s _. destruct w; auto. apply bind_mono; auto. clear s. intros k1 s _. apply bind_mono.
  { intros x E. apply (Term_Compare_mono _ f f'); [lia|exact E]. }
  clear s. intros x s _. destruct (negb (x =? 0)); auto. apply IH. lia.
Qed.
Lemma Group_mono name nil f f' m all r : (f <= f')%nat -> Group name nil f m all = Ret r -> Group name nil f' m all = Ret r.
Proof.
  intros Hf. unfold Group. apply bind_mono.
  { intros w E. apply (deref_mono f _ _ _ E); [discriminate|lia]. }
  intros w s _. destruct w; auto. apply bind_mono; auto. clear s. intros car s _. apply bind_mono.
  { intros w E. apply (deref_mono f _ _ _ E); [discriminate|lia]. }
  clear s. intros w s _. destruct w; auto. apply bind_mono; auto. clear s. intros k s _. apply bind_mono; auto.
  intros v E. exact (loop_mono _ _ _ _ Hf _ _ _ _ _ E).
Qed.

Section Answers.
Variables (name : Z -> list Z) (nil minus : Z).
Hypothesis inj : forall i j, name i = name j -> i = j.

Lemma Group_ok o m all c cs s l : sub o m -> derefs m all (LST c) -> separate o (c :: cs) ->
  pairs m o nil minus (c :: cs) (s :: l) -> Forall (fun s => nan_free (kt s)) (s :: l) ->
  exists l1 l2 cs1 cs2 F m' key, l = l1 ++ l2 /\ cs = cs1 ++ cs2 /\ length cs1 = length l1 /\
  Forall (fun s' => same_term (kt s) (kt s')) l1 /\ match l2 with [] => True | s' :: _ => ~ same_term (kt s) (kt s') end /\
  (forall fuel, (F <= fuel)%nat -> Group name nil fuel m all =
     Ret (m', key, match cs2 with [] => None | c' :: _ => Some (LST c') end)) /\
  den o key (kt s) /\ vals m' o nil (c :: cs1) (map vt (s :: l1)) /\ pairs m' o nil minus cs2 l2 /\
  (forall x, off (c :: cs1) x -> m' x = m x).
Proof.
  intros Sb Da Sp Pa Nf. inversion Nf as [|? ? N1 N2]; subst. assert (Pa0 := Pa). cbn [pairs] in Pa.
  destruct Pa as ((u & Eu & Du) & (Ef & kw & vw & Ekw & Dkw & _) & _).
  destruct (loop_ok name nil minus inj o kw (kt s) Dkw N1 l cs m c s Sb Sp Pa0 N2) as (l1 & l2 & cs1 & cs2 & E1 & E2 & Ln & Sa & Di & F & m' & R1 & R2 & R3 & R4).
  destruct (derefs_fun _ _ _ Da) as (F1 & K1). destruct (derefs_fun _ _ _ (derefs_sub _ _ _ _ Sb Du)) as (F2 & K2).
  exists l1, l2, cs1, cs2, (F + F1 + F2)%nat, m', kw. repeat (split; [assumption|]). split; [|repeat (split; [assumption|]); assumption].
  intros fuel Hf. unfold Group. rewrite K1 by lia. cbn [bind]. unfold rd_word at 1. rewrite Eu. cbn [bind]. rewrite K2 by lia. cbn [bind].
  unfold rd_word at 1. rewrite (Sb _ _ Ekw). cbn [bind]. rewrite R1 by lia. reflexivity.
Qed.

Definition shown (a : mem * word * word) (g : term * list term) : Prop :=
  let '(m, key, all) := a in den m key (fst g) /\ den m all (list_term nil (snd g)).

Lemma off_none o c cs x d : separate o (c :: cs) -> o x = Some d -> off (c :: cs) x.
Proof.
  intros Sp E. unfold off. rewrite Forall_forall. revert Sp. generalize (c :: cs). clear c cs. induction l as [|c cs IH]; intros Sp c' I; [destruct I|].
  cbn [separate] in Sp. destruct Sp as (A & B & _ & Sp). destruct I as [->|I]; [split; intros ->; congruence|auto].
Qed.
Lemma separate_app o l r : separate o (l ++ r) -> separate o l /\ separate o r.
Proof.
  induction l as [|c l IH]; cbn [app separate]; auto. intros (A & B & C & D). apply Forall_app in C. tauto.
Qed.
Lemma pairs_def m o : forall cs l, pairs m o nil minus cs l -> forall c, In c cs -> m c <> None /\ m (c + 1) <> None.
Proof.
  induction cs as [|c cs IH]; intros [|s l] P c' I; cbn [pairs] in P; try contradiction.
  destruct P as ((u & E & _) & _ & E2 & P). destruct I as [<-|I]; [split; congruence|]. exact (IH l P c' I).
Qed.
Lemma den_of_deref m w w' t : derefs m w w' -> den m w' t -> den m w t.
Proof. intros D. induction D; auto. intros X. eapply den_ref; eauto. Qed.

Lemma answers_ok : forall m all l, answers name nil m all l -> forall o c cs s ss,
  sub o m -> derefs o all (LST c) -> separate o (c :: cs) -> pairs m o nil minus (c :: cs) (s :: ss) ->
  Forall (fun s => nan_free (kt s)) (s :: ss) -> exists gs, groups (s :: ss) gs /\ Forall2 shown l gs.
Proof.
  intros m all l A. induction A as [fuel m all m' key G|fuel m all m' key rest m2 l G Ag A IH]; intros o c cs s ss Sb Da Sp Pa Nf;
    destruct (Group_ok o m all c cs s ss Sb (derefs_sub _ _ _ _ Sb Da) Sp Pa Nf) as (l1 & l2 & cs1 & cs2 & F & m1 & key1 & -> & -> & Ln & Sa & Di & R0 & Dk & R2 & R3 & R4);
    pose proof (Group_mono name nil fuel (F + fuel) m all _ ltac:(lia) G) as G'; rewrite R0 in G' by lia.
  all: assert (Sb1 : sub o m1) by (intros x d E; rewrite R4; [exact (Sb x d E)|]; change (c :: cs1 ++ cs2) with ((c :: cs1) ++ cs2) in Sp;
      exact (off_none o c cs1 x d (proj1 (separate_app _ _ _ Sp)) E)).
  all: assert (Hd : shown (m1, key1, all) (kt s, map vt (s :: l1))) by
    (split; [exact (proj1 (den_sub_both _ _ Sb1) _ _ Dk)|]; cbn [snd];
     apply (den_of_deref _ _ (LST c) _ (derefs_sub _ _ _ _ Sb1 Da)); exact (vals_den m1 o nil Sb1 cs1 _ c R2)).
  - destruct cs2 as [|c2 cs2]; [|discriminate]. injection G' as -> ->. destruct l2; [|destruct R3].
    exists [(kt s, map vt (s :: l1))]. split; [|constructor; auto]. constructor; auto. constructor.
  - destruct cs2 as [|c2 cs2]; [discriminate|]. injection G' as -> -> <-. destruct l2 as [|s2 l2]; [destruct R3|].
    change (c :: cs1 ++ c2 :: cs2) with ((c :: cs1) ++ c2 :: cs2) in Sp. apply separate_app in Sp. destruct Sp as (_ & Sp2).
    destruct (IH o c2 cs2 s2 l2) as (gs & Gs & Fs).
    + intros x d E. rewrite Ag; rewrite (Sb1 x d E); congruence.
    + apply drf_other. discriminate.
    + exact Sp2.
    + apply (pairs_agree m' m2 _ _ _ _ _ R3). intros c0 I0. destruct (pairs_def _ _ _ _ R3 c0 I0). split; apply Ag; auto.
    + inversion Nf as [|? ? _ Nf2]; subst. apply Forall_app in Nf2. apply Nf2.
    + exists ((kt s, map vt (s :: l1)) :: gs). split; [constructor; auto|]. constructor; auto.
Qed.
End Answers.

(** ** Groups of a sorted list *)
Section Sorted.
Variable name : Z -> list Z.
Hypothesis inj : forall i j, name i = name j -> i = j.

Lemma same_refl t : same_term t t.
Proof. now apply same_term_norm. Qed.
Lemma same_sym t u : same_term t u -> same_term u t.
Proof. rewrite !same_term_norm. auto. Qed.
Lemma same_trans t u v : same_term t u -> same_term u v -> same_term t v.
Proof. rewrite !same_term_norm. congruence. Qed.
Lemma lt_same_r t u v : nan_free t -> nan_free u -> nan_free v -> term_lt name t u -> same_term u v -> term_lt name t v.
Proof.
  intros N1 N2 N3 Lt Sa. destruct (term_lt_total name inj t v N1 N3) as [X|[X|X]]; auto.
  - exfalso. apply (term_lt_irrefl name inj t u N1 N2 (same_trans _ _ _ X (same_sym _ _ Sa)) Lt).
  - exfalso. apply (term_lt_irrefl name inj v u N3 N2 (same_sym _ _ Sa)). exact (term_lt_trans name inj _ _ _ N3 N1 N2 X Lt).
Qed.
Lemma lt_same_l t u v : nan_free t -> nan_free u -> nan_free v -> same_term t u -> term_lt name u v -> term_lt name t v.
Proof.
  intros N1 N2 N3 Sa Lt. destruct (term_lt_total name inj t v N1 N3) as [X|[X|X]]; auto.
  - exfalso. apply (term_lt_irrefl name inj u v N2 N3 (same_trans _ _ _ (same_sym _ _ Sa) X) Lt).
  - exfalso. apply (term_lt_irrefl name inj u t N2 N1 (same_sym _ _ Sa)). exact (term_lt_trans name inj _ _ _ N2 N3 N1 Lt X).
Qed.

Definition le_key (s s' : sol) : Prop := ~ term_lt name (kt s') (kt s).
Lemma filter_none {A} (f : A -> bool) l : (forall x, In x l -> f x = false) -> filter f l = [].
Proof. induction l as [|x l IH]; intros H; cbn; auto. rewrite (H x (or_introl eq_refl)). apply IH. intros y I. apply H. now right. Qed.
Lemma filter_all {A} (f : A -> bool) l : (forall x, In x l -> f x = true) -> filter f l = l.
Proof. induction l as [|x l IH]; intros H; cbn; auto. rewrite (H x (or_introl eq_refl)). f_equal. apply IH. intros y I. apply H. now right. Qed.

Lemma groups_keys l gs : groups l gs -> forall g, In g gs -> exists s, In s l /\ kt s = fst g.
Proof.
  induction 1 as [|s l1 l2 gs Sa Di G IH]; intros g I; [destruct I|]. destruct I as [<-|I].
  - exists s. split; [now left|reflexivity].
  - destruct (IH g I) as (s' & I' & E). exists s'. split; auto. right. apply in_or_app. auto.
Qed.
Lemma groups_sorted l gs : groups l gs -> StronglySorted le_key l -> Forall (fun s => nan_free (kt s)) l ->
  ForallOrdPairs (fun g g' => term_lt name (fst g) (fst g')) gs /\
  (forall g, In g gs -> snd g <> [] /\
     forall f, (forall s, In s l -> f s = true <-> same_term (fst g) (kt s)) -> snd g = map vt (filter f l)) /\
  (forall s, In s l -> exists g, In g gs /\ same_term (fst g) (kt s)).
Proof.
  induction 1 as [|s l1 l2 gs Sa Di G IH]; intros So Nf.
  - split; [constructor|]. split; intros x [].
  - rewrite Forall_forall in Nf, Sa. inversion So as [|? ? So1 So2]; subst. rewrite Forall_forall in So2.
    assert (N0 : nan_free (kt s)) by (apply Nf; now left).
    assert (Nl : forall x, In x (l1 ++ l2) -> nan_free (kt x)) by (intros x I; apply Nf; now right).
    assert (So3 : StronglySorted le_key l2) by (clear - So1; induction l1 as [|x l1 IH]; auto; inversion So1; auto).
    assert (Gt : forall x, In x l2 -> term_lt name (kt s) (kt x)).
    { destruct l2 as [|y l2]; [intros x []|]. assert (Iy : In y (l1 ++ y :: l2)) by (apply in_or_app; right; now left).
      assert (Ly : term_lt name (kt s) (kt y)).
      { destruct (term_lt_total name inj (kt s) (kt y) N0 (Nl y Iy)) as [X|[X|X]]; auto; [contradiction|]. destruct (So2 y Iy X). }
      intros x [<-|I]; [exact Ly|]. assert (Ix : In x (l1 ++ y :: l2)) by (apply in_or_app; right; now right).
      inversion So3 as [|? ? _ Sy]; subst. rewrite Forall_forall in Sy. specialize (Sy x I). unfold le_key in Sy.
      destruct (term_lt_total name inj (kt y) (kt x) (Nl y Iy) (Nl x Ix)) as [X|[X|X]]; [|exact (lt_same_r _ _ _ N0 (Nl y Iy) (Nl x Ix) Ly X)|contradiction].
      exact (term_lt_trans name inj _ _ _ N0 (Nl y Iy) (Nl x Ix) Ly X). }
    destruct IH as (I1 & I2 & I3); auto. { rewrite Forall_forall. intros x I. apply Nl. apply in_or_app. auto. }
    assert (Gk : forall g, In g gs -> term_lt name (kt s) (fst g) /\ nan_free (fst g)).
    { intros g I. destruct (groups_keys _ _ G g I) as (x & Ix & <-). split; [auto|]. apply Nl. apply in_or_app. auto. }
    split; [|split].
    + constructor; auto. rewrite Forall_forall. intros g I. apply Gk, I.
    + intros g [<-|I].
      * cbn [fst snd]. split; [discriminate|]. intros f Hf.
        change (s :: l1 ++ l2) with ((s :: l1) ++ l2). rewrite filter_app, (filter_all f (s :: l1)), (filter_none f l2), app_nil_r; auto.
        -- intros x I. destruct (f x) eqn:E; auto. exfalso.
           assert (Ix : In x (s :: l1 ++ l2)) by (right; apply in_or_app; auto). apply (Hf x Ix) in E.
           exact (term_lt_irrefl name inj _ _ N0 (Nf x Ix) E (Gt x I)).
        -- intros x I. apply Hf; [destruct I as [->|I]; [now left|right; apply in_or_app; auto]|].
           destruct I as [->|I]; [apply same_refl|auto].
      * destruct (I2 g I) as (Ne & Fg). split; [exact Ne|]. intros f Hf.
        change (s :: l1 ++ l2) with ((s :: l1) ++ l2). rewrite filter_app, (filter_none f (s :: l1)).
        -- cbn [app]. apply Fg. intros x Ix. apply Hf. right. apply in_or_app. auto.
        -- intros x Ix. destruct (f x) eqn:E; auto. exfalso. destruct (Gk g I) as (Lt & Ng).
           assert (Ix' : In x (s :: l1 ++ l2)) by (destruct Ix as [->|Ix]; [now left|right; apply in_or_app; auto]).
           apply (Hf x Ix') in E.
           assert (Sx : same_term (kt s) (kt x)) by (destruct Ix as [->|Ix]; [apply same_refl|auto]).
           apply (term_lt_irrefl name inj (kt s) (fst g) N0 Ng); auto. exact (same_trans _ _ _ Sx (same_sym _ _ E)).
    + intros x [<-|I].
      * exists (kt s, map vt (s :: l1)). split; [now left|apply same_refl].
      * apply in_app_or in I. destruct I as [I|I].
        -- exists (kt s, map vt (s :: l1)). split; [now left|]. cbn [fst]. auto.
        -- destruct (I3 x I) as (g & Ig & Sg). exists g. split; [now right|exact Sg].
Qed.
End Sorted.
