(** C60: what the classification of the variables gives. *)
Require Import List Bool Arith Lia Permutation.
Require Import Verif.RegAlloc_Model Verif.Clause_Model Verif.Clause_Shape Verif.Clause_Sound.
Import ListNotations.

Lemma vo_in_iff : forall kd n l, In n (vo kd l) <-> In n l /\ kd n = KVoid.
Proof. intros kd n l. unfold vo. rewrite filter_In. unfold is_void. destruct (kd n); intuition congruence. Qed.
(** the variables of the goals *)
Definition gvars (p : nat * goal) : list nat := lvars (g_args (snd p)).
Definition bvars (l : list (nat * goal)) : list nat := flat_map gvars l.
(** the occurrences, with their chunks *)
Definition goccs (p : nat * goal) : list (nat * nat) := map (fun n => (fst p, n)) (gvars p).
Definition boccs (l : list (nat * goal)) : list (nat * nat) := flat_map goccs l.
Definition occs (head : list tm) (l : list (nat * goal)) : list (nat * nat) := map (fun n => (0, n)) (lvars head) ++ boccs l.
Definition add1 (d : list dv) (o : nat * nat) : list dv := add_var_to_dico d (snd o) (fst o).

Lemma add_vars_fold : forall no l d, add_vars no l d = fold_left add1 (map (fun n => (no, n)) l) d.
Proof. intros no. unfold add_vars. induction l as [|n l IH]; intros d; [reflexivity|]. cbn. apply IH. Qed.
Lemma dico_fold : forall head l, dico head l = fold_left add1 (occs head l) [].
Proof.
  intros head l. unfold dico, occs. rewrite fold_left_app, <- add_vars_fold. generalize (add_vars 0 (lvars head) []). induction l as [|p l IH]; intros d; [reflexivity|].
  cbn. unfold boccs, goccs in *. cbn. rewrite fold_left_app, <- add_vars_fold. apply IH.
Qed.
Lemma boccs_snd : forall l, map snd (boccs l) = bvars l.
Proof. induction l as [|p l IH]; [reflexivity|]. unfold boccs, bvars in *. cbn. rewrite map_app, IH. unfold goccs. rewrite map_map. cbn. rewrite map_id. reflexivity. Qed.
Lemma occs_snd : forall head l, map snd (occs head l) = lvars head ++ bvars l.
Proof. intros head l. unfold occs. rewrite map_app, boccs_snd, map_map, map_id. reflexivity. Qed.

(** * The dictionary *)
Notation cnt O n := (count_occ Nat.eq_dec (map (@snd nat nat) O) n).
Record entry (O : list (nat * nat)) (x : dv) : Prop := Ent {
  en_first : In (d_first x, d_var x) O;
  en_least : forall no, In (no, d_var x) O -> d_first x <= no;
  en_single : d_single x = true -> cnt O (d_var x) = 1;
  en_x : d_y x = false -> forall no, In (no, d_var x) O -> no = d_first x \/ no <= 1;
  en_y : d_y x = true -> exists no, In (no, d_var x) O /\ d_first x < no /\ 1 < no }.
Lemma cnt_snoc : forall O no n m, cnt (O ++ [(no, n)]) m = cnt O m + if Nat.eq_dec n m then 1 else 0.
Proof. intros O no n m. rewrite map_app, count_occ_app. cbn [map snd count_occ]. destruct (Nat.eq_dec n m); reflexivity. Qed.
Lemma in_snoc : forall (O : list (nat * nat)) a b, In a (O ++ [b]) <-> In a O \/ a = b.
Proof. intros O a b. rewrite in_app_iff. cbn. intuition. Qed.
Lemma entry_other : forall O x no n, entry O x -> d_var x <> n -> entry (O ++ [(no, n)]) x.
Proof.
  intros O x no n [H1 H2 H3 H4 H5] D. constructor.
  - apply in_snoc. auto.
  - intros k Hk. apply in_snoc in Hk. destruct Hk as [Hk|Hk]; [auto|]. injection Hk. intros; congruence.
  - intros Q. rewrite cnt_snoc. destruct (Nat.eq_dec n (d_var x)); [congruence|]. rewrite H3; auto.
  - intros Q k Hk. apply in_snoc in Hk. destruct Hk as [Hk|Hk]; [auto|]. injection Hk. intros; congruence.
  - intros Q. destruct (H5 Q) as (k & Hk & Q1). exists k. rewrite in_snoc. auto.
Qed.
Definition dok (O : list (nat * nat)) (d : list dv) : Prop :=
  NoDup (map d_var d) /\ (forall no n, In (no, n) O -> In n (map d_var d)) /\ forall x, In x d -> entry O x.
Lemma add_map : forall d n no m, In m (map d_var (add_var_to_dico d n no)) <-> In m (map d_var d) \/ m = n.
Proof.
  induction d as [|x d IH]; intros n no m; cbn; [intuition|]. destruct (Nat.eqb_spec (d_var x) n) as [E|E]; cbn; [|rewrite IH; intuition]. rewrite E. intuition.
Qed.
Lemma add_nodup : forall d n no, NoDup (map d_var d) -> NoDup (map d_var (add_var_to_dico d n no)).
Proof.
  induction d as [|x d IH]; intros n no N; cbn in *; [constructor; [intros []|constructor]|]. inversion N; subst. destruct (Nat.eqb_spec (d_var x) n) as [E|E]; cbn; [constructor; [congruence|assumption]|].
  constructor; [|apply IH; assumption]. rewrite add_map. intros [Q|Q]; [contradiction|congruence].
Qed.
Lemma add_entry : forall O n no, (forall k m, In (k, m) O -> k <= no) -> forall d, NoDup (map d_var d) -> (forall x, In x d -> entry O x) -> (~ In n (map d_var d) -> ~ In n (map snd O)) ->
  forall x, In x (add_var_to_dico d n no) -> entry (O ++ [(no, n)]) x.
Proof.
  intros O n no HO. induction d as [|y d IH]; intros N HE HN x Hx; cbn in *.
  - destruct Hx as [<-|[]]. specialize (HN ltac:(auto)). assert (Q : forall k, ~ In (k, n) O) by (intros k Hk; apply HN; apply (in_map snd) in Hk; exact Hk). constructor; cbn.
    + apply in_snoc. auto.
    + intros k Hk. apply in_snoc in Hk. destruct Hk as [Hk|Hk]; [exfalso; apply (Q k Hk)|]. injection Hk. lia.
    + intros _. rewrite cnt_snoc. destruct (Nat.eq_dec n n); [|congruence]. apply (count_occ_not_In Nat.eq_dec) in HN. lia.
    + intros _ k Hk. apply in_snoc in Hk. destruct Hk as [Hk|Hk]; [exfalso; apply (Q k Hk)|]. injection Hk. auto.
    + discriminate.
  - inversion N as [|? ? N1 N2]; subst. destruct (Nat.eqb_spec (d_var y) n) as [E|E].
    + destruct Hx as [<-|Hx].
      * destruct (HE y (or_introl eq_refl)) as [H1 H2 H3 H4 H5]. rewrite E in *. constructor; cbn [d_var d_first d_single d_y].
        -- apply in_snoc. auto.
        -- intros k Hk. apply in_snoc in Hk. destruct Hk as [Hk|Hk]; [auto|]. injection Hk. intros ->. apply (HO _ _ H1).
        -- discriminate.
        -- intros Q k Hk. apply orb_false_elim in Q. destruct Q as (Q1 & Q2). apply in_snoc in Hk. destruct Hk as [Hk|Hk]; [auto|]. injection Hk as ->.
           destruct (Nat.eqb_spec (d_first y) no) as [Q3|Q3]; [auto|]. change ((1 <? no) = false) in Q2. apply Nat.ltb_ge in Q2. auto.
        -- intros Q. apply orb_true_iff in Q. destruct Q as [Q|Q].
           ++ destruct (H5 Q) as (k & Hk & Q1). exists k. rewrite in_snoc. auto.
           ++ apply andb_true_iff in Q. destruct Q as (Q1 & Q2). apply negb_true_iff, Nat.eqb_neq in Q1. change ((1 <? no) = true) in Q2. apply Nat.ltb_lt in Q2. exists no. rewrite in_snoc. split; [auto|]. specialize (HO _ _ H1). lia.
      * apply entry_other; [apply HE; right; exact Hx|]. intros Q. apply N1. rewrite E, <- Q. apply in_map. exact Hx.
    + destruct Hx as [<-|Hx]; [apply entry_other; [apply HE; left; reflexivity|exact E]|]. apply IH; auto. intros Q. apply HN. intros [Q1|Q1]; contradiction.
Qed.
Fixpoint sorted (l : list nat) : Prop := match l with [] => True | a :: l => (forall b, In b l -> a <= b) /\ sorted l end.
Lemma sorted_app : forall l1 l2, sorted (l1 ++ l2) <-> sorted l1 /\ sorted l2 /\ forall a b, In a l1 -> In b l2 -> a <= b.
Proof.
  induction l1 as [|x l1 IH]; intros l2; cbn; [intuition; contradiction|]. rewrite IH. split.
  - intros (H1 & H2 & H3 & H4). split; [split; [intros b Hb; apply H1; apply in_app_iff; auto|exact H2]|]. split; [exact H3|]. intros a b [<-|Ha] Hb; [apply H1; apply in_app_iff; auto|auto].
  - intros ((H1 & H2) & H3 & H4). split; [intros b Hb; apply in_app_iff in Hb; destruct Hb; auto|]. split; [exact H2|]. split; [exact H3|]. intros a b Ha Hb. auto.
Qed.
Lemma dok_fold : forall O, sorted (map fst O) -> dok O (fold_left add1 O []).
Proof.
  induction O as [|(no, n) O IH] using rev_ind; intros S0.
  - split; [constructor|]. split; [intros no n []|intros x []].
  - rewrite map_app in S0. apply sorted_app in S0. destruct S0 as (S1 & _ & S2). destruct (IH S1) as (D1 & D2 & D3). rewrite fold_left_app. cbn [fold_left]. set (d := fold_left add1 O []) in *. unfold add1. cbn [fst snd]. split; [apply add_nodup; exact D1|]. split.
    + intros k m Hk. rewrite add_map. apply in_snoc in Hk. destruct Hk as [Hk|Hk]; [left; eauto|]. injection Hk. auto.
    + apply add_entry; auto.
      * intros k m Hk. apply (S2 k no); [apply (in_map fst) in Hk; exact Hk|left; reflexivity].
      * intros Q1 Q2. apply Q1. apply in_map_iff in Q2. destruct Q2 as ((k, m) & Q2 & Q3). cbn in Q2. subst m. eauto.
Qed.

(** * Kinds *)
Lemma classif_vars_ok : forall d y l nb, classif_vars d y = (l, nb) -> NoDup (map d_var d) -> y <= nb /\
  (forall x, In x d -> match kind_of l (d_var x) with KY z => d_y x = true /\ y <= z < nb | KVoid => d_y x = false /\ d_single x = true | KX => d_y x = false end) /\
  (forall n z, kind_of l n = KY z -> In n (map d_var d) /\ y <= z < nb) /\
  (forall n n' z, kind_of l n = KY z -> kind_of l n' = KY z -> n = n').
Proof.
  induction d as [|x d IH]; intros y l nb E N; cbn in E.
  - injection E as <- <-. cbn. split; [lia|]. split; [contradiction|]. split; discriminate.
  - remember (if d_y x then y + 1 else y) as y1 eqn:Ey1. assert (Y1 : y <= y1 /\ (d_y x = true -> y < y1)) by (destruct (d_y x); subst y1; split; intros; try discriminate; lia). clear Ey1. destruct Y1 as (Y1 & Y2).
    destruct (classif_vars d y1) as (l1, nb1) eqn:E1. injection E as <- <-. cbn in N. inversion N as [|? ? N1 N2]; subst. destruct (IH _ _ _ E1 N2) as (I1 & I2 & I3 & I4).
    assert (LE : y <= nb1) by lia. split; [exact LE|]. split; [|split].
    + intros z [<-|Hz]; cbn [kind_of].
      * rewrite Nat.eqb_refl. destruct (d_y x); [split; [reflexivity|specialize (Y2 eq_refl); lia]|]. destruct (d_single x); auto.
      * destruct (Nat.eqb_spec (d_var x) (d_var z)) as [Q|Q]; [exfalso; apply N1; rewrite Q; apply in_map; exact Hz|]. specialize (I2 z Hz). destruct (kind_of l1 (d_var z)); auto. split; [apply I2|lia].
    + intros n z. cbn. destruct (Nat.eqb_spec (d_var x) n) as [Q|Q].
      * intros Q1. split; [auto|]. destruct (d_y x); [injection Q1 as <-; specialize (Y2 eq_refl); lia|destruct (d_single x); discriminate Q1].
      * intros Q1. destruct (I3 _ _ Q1) as (Q2 & Q3). split; [auto|]. lia.
    + intros n n' z. cbn. destruct (Nat.eqb_spec (d_var x) n) as [Q|Q], (Nat.eqb_spec (d_var x) n') as [Q'|Q'].
      * congruence.
      * intros Q1 Q2. exfalso. destruct (d_y x); [|destruct (d_single x); discriminate Q1]. injection Q1 as <-. apply I3 in Q2. specialize (Y2 eq_refl). lia.
      * intros Q1 Q2. exfalso. destruct (d_y x); [|destruct (d_single x); discriminate Q2]. injection Q2 as <-. apply I3 in Q1. specialize (Y2 eq_refl). lia.
      * apply I4.
Qed.
Lemma max_var_in : forall l n, In n l -> n < max_var l.
Proof. induction l as [|a l IH]; intros n H; [contradiction|]. unfold max_var. cbn [fold_right]. fold (max_var l). destruct H as [->|H]; [lia|]. specialize (IH n H). lia. Qed.

(** * Chunks *)
Lemma chunks_ok : forall l start no body nb, chunks start no l = (body, nb) -> map snd body = l /\ no <= nb /\ sorted (map fst body) /\
  (forall p, In p body -> (if start then no + 1 else no) <= fst p <= nb) /\
  (l <> [] -> last (map fst body) 0 = nb) /\
  (forall l1 p l2, body = l1 ++ p :: l2 -> g_inl (snd p) = false -> forall p', In p' l2 -> fst p < fst p') /\ (l = [] -> nb = no).
Proof.
  induction l as [|g l IH]; intros start no body nb E; cbn in E.
  - injection E as <- <-. cbn. split; [reflexivity|]. split; [lia|]. split; [constructor|]. split; [contradiction|]. split; [congruence|]. split; [|auto]. intros [|a l1] p l2 E; discriminate E.
  - set (no1 := if start then no + 1 else no) in *. destruct (chunks (negb (g_inl g)) no1 l) as (b1, nb1) eqn:E1. injection E as <- <-. destruct (IH _ _ _ _ E1) as (I1 & I2 & I3 & I4 & I5 & I6 & I7).
    assert (LE : no <= no1) by (unfold no1; destruct start; lia). split; [cbn; f_equal; exact I1|]. split; [lia|]. split; [|split; [|split; [|split]]].
    + cbn. split; [|exact I3]. intros b Hb. apply in_map_iff in Hb. destruct Hb as (p & <- & Hp). specialize (I4 p Hp). destruct (negb (g_inl g)); lia.
    + intros p [<-|Hp]; [cbn; lia|]. specialize (I4 p Hp). destruct (negb (g_inl g)); lia.
    + intros _. destruct l as [|g2 l]; [cbn in E1; injection E1 as <- <-; reflexivity|]. rewrite <- (I5 ltac:(discriminate)). cbn in E1. destruct (chunks (negb (g_inl g2)) (if negb (g_inl g) then no1 + 1 else no1) l) as (b2, nb2). injection E1 as <- <-. reflexivity.
    + intros [|p1 l1] p l2 E Ep p' Hp'.
      * injection E as <- <-. cbn in Ep. specialize (I4 p' Hp'). rewrite Ep in I4. cbn in *. lia.
      * injection E as <- E. apply (I6 l1 p l2 E Ep p' Hp').
    + discriminate.
Qed.
Lemma occs_sorted : forall head body, sorted (map fst body) -> sorted (map fst (occs head body)).
Proof.
  intros head body S0. unfold occs. rewrite map_app, map_map. apply sorted_app. cbn. split; [|split].
  - induction (lvars head) as [|n l IH]; cbn; [constructor|]. split; [lia|exact IH].
  - induction body as [|p body IH]; [constructor|]. unfold boccs. cbn. rewrite map_app. destruct S0 as (S1 & S2). apply sorted_app. split; [|split].
    + unfold goccs. rewrite map_map. cbn. induction (gvars p) as [|n l IHl]; cbn; [constructor|]. split; [|exact IHl]. intros b Hb. apply in_map_iff in Hb. destruct Hb as (? & <- & _). lia.
    + apply IH. exact S2.
    + intros a b Ha Hb. unfold goccs in Ha. rewrite map_map in Ha. apply in_map_iff in Ha. destruct Ha as (? & <- & _). cbn. apply in_map_iff in Hb. destruct Hb as ((k, m) & <- & Hb). apply in_flat_map in Hb. destruct Hb as (p' & Hp' & Hb).
      apply in_map_iff in Hb. destruct Hb as (? & Hb & _). injection Hb as <- <-. cbn. apply S1. apply in_map. exact Hp'.
  - intros a b Ha _. apply in_map_iff in Ha. destruct Ha as (? & <- & _). lia.
Qed.
Lemma boccs_in : forall l no n, In (no, n) (boccs l) <-> exists p, In p l /\ fst p = no /\ In n (gvars p).
Proof.
  intros l no n. unfold boccs. rewrite in_flat_map. split; intros (p & Hp & H); exists p; (split; [exact Hp|]).
  - unfold goccs in H. apply in_map_iff in H. destruct H as (m & H & Hm). injection H as <- <-. auto.
  - destruct H as (<- & H). unfold goccs. apply in_map_iff. eauto.
Qed.

(** * What the body needs: [W]: the variables seen before *)
Section BodyOk.
Variable kd : nat -> kind.
Variable N0 : nat.
Fixpoint bodyok (W : list nat) (lp : bool) (nb : nat) (l : list (nat * goal)) : Prop :=
  match l with
  | [] => True
  | (no, g) :: l =>
    let v := lvars (g_args g) in
    let lp := lp || (no =? nb) in
    (lp = true -> forall n y, In n v -> kd n = KY y -> In n W) /\
    (g_inl g = false -> forall n, kd n = KX -> In n (bvars l) -> ~ In n (W ++ v)) /\
    (l = [] -> no = nb) /\
    (g_inl g = false -> l <> [] -> 1 < nb) /\
    bodyok (W ++ v) lp nb l
  end.
End BodyOk.
Lemma in_count_app : forall (l1 l2 : list nat) n, In n l1 -> In n l2 -> 2 <= count_occ Nat.eq_dec (l1 ++ l2) n.
Proof. intros l1 l2 n H1 H2. rewrite count_occ_app. apply (count_occ_In Nat.eq_dec) in H1, H2. lia. Qed.
Lemma count_filter : forall (f : nat -> bool) l n, count_occ Nat.eq_dec (filter f l) n <= count_occ Nat.eq_dec l n.
Proof. intros f. induction l as [|a l IH]; intros n; cbn; [lia|]. specialize (IH n). destruct (f a); cbn; destruct (Nat.eq_dec a n); lia. Qed.

Record class_ok (kd : nat -> kind) (N0 y0 nby : nat) (nb : nat) (head : list tm) (body : list (nat * goal)) : Prop := Cok {
  co_lt : forall n, In n (lvars head ++ bvars body) -> n < N0;
  co_inj : forall n n' y, n < N0 -> n' < N0 -> kd n = KY y -> kd n' = KY y -> n = n';
  co_y : forall n y, kd n = KY y -> y0 <= y < nby /\ 1 < nb;
  co_void : NoDup (vo kd (lvars head ++ bvars body));
  co_body : bodyok kd (lvars head) false nb body }.
Lemma compile_class : forall cl body nb y0 k nby, chunks true 0 (c_body cl) = (body, nb) -> classif_vars (dico (c_head cl) body) y0 = (k, nby) ->
  class_ok (kind_of k) (max_var (map d_var (dico (c_head cl) body))) y0 nby nb (c_head cl) body.
Proof.
  intros cl body nb y0 k nby EC EK. destruct (chunks_ok _ _ _ _ _ EC) as (C1 & C2 & C3 & C4 & C5 & C6 & C7).
  rewrite dico_fold in *. set (head := c_head cl) in *. pose proof (dok_fold (occs head body) (occs_sorted head body C3)) as (D1 & D2 & D3). set (d := fold_left add1 (occs head body) []) in *.
  destruct (classif_vars_ok _ _ _ _ EK D1) as (K1 & K2 & K3 & K4).
  assert (IN : forall n, In n (lvars head ++ bvars body) -> In n (map d_var d)).
  { intros n Hn. rewrite <- occs_snd in Hn. apply in_map_iff in Hn. destruct Hn as ((no, m) & <- & Hn). apply (D2 _ _ Hn). }
  assert (OB : forall no n, In (no, n) (occs head body) -> no <= nb).
  { intros no n Hn. unfold occs in Hn. apply in_app_iff in Hn. destruct Hn as [Hn|Hn]; [apply in_map_iff in Hn; destruct Hn as (? & Hn & _); injection Hn; lia|]. apply boccs_in in Hn. destruct Hn as (p & Hp & <- & _). apply (C4 p Hp). }
  constructor.
  - intros n Hn. apply max_var_in. auto.
  - intros n n' y _ _. apply K4.
  - intros n y E. destruct (K3 n y E) as (Q1 & Q2). split; [exact Q2|]. apply in_map_iff in Q1. destruct Q1 as (x & <- & Hx). specialize (K2 x Hx). rewrite E in K2. destruct (en_y _ _ (D3 x Hx) (proj1 K2)) as (no & Hno & _ & Q3). specialize (OB _ _ Hno). lia.
  - apply (NoDup_count_occ' Nat.eq_dec). intros n Hn. apply vo_in_iff in Hn as (Hn1 & Hn2).
    assert (Q : 0 < count_occ Nat.eq_dec (vo (kind_of k) (lvars head ++ bvars body)) n) by (apply count_occ_In; apply vo_in_iff; auto).
    pose proof (count_filter (is_void (kind_of k)) (lvars head ++ bvars body) n) as Q2. fold (vo (kind_of k) (lvars head ++ bvars body)) in Q2.
    specialize (IN n Hn1). apply in_map_iff in IN. destruct IN as (x & <- & Hx). specialize (K2 x Hx). rewrite Hn2 in K2. pose proof (en_single _ _ (D3 x Hx) (proj2 K2)) as Q3. rewrite occs_snd in Q3. lia.
  - (* the goals *)
    assert (GEN : forall l pre W lp, body = pre ++ l -> W = lvars head ++ bvars pre -> (lp = true -> exists p, In p pre /\ fst p = nb) -> bodyok (kind_of k) W lp nb l).
    { induction l as [|(no, g) l IH]; intros pre W lp EB EW HLP; [constructor|]. cbn [bodyok].
      assert (SP : forall p, In p pre -> fst p <= no). { intros p Hp. rewrite EB, map_app in C3. apply sorted_app in C3. apply (proj2 (proj2 C3)); [apply in_map; exact Hp|left; reflexivity]. }
      assert (SL : forall p, In p l -> no <= fst p). { intros p Hp. rewrite EB, map_app in C3. apply sorted_app in C3. destruct C3 as (_ & (S1 & _) & _). apply S1. apply in_map. exact Hp. }
      assert (NB : no <= nb) by (apply (C4 (no, g)); rewrite EB; apply in_app_iff; right; left; reflexivity).
      assert (HIN : In (no, g) body) by (rewrite EB; apply in_app_iff; right; left; reflexivity).
      split; [|split; [|split; [|split]]].
      - intros Q n y Hn EKn. assert (ENO : no = nb). { apply orb_true_iff in Q. destruct Q as [Q|Q]; [|apply Nat.eqb_eq in Q; exact Q]. destruct (HLP Q) as (p & Hp & <-). specialize (SP p Hp). lia. }
        destruct (K3 n y EKn) as (Q1 & _). apply in_map_iff in Q1. destruct Q1 as (x & <- & Hx). specialize (K2 x Hx). rewrite EKn in K2. destruct (D3 x Hx) as [E1 E2 _ _ E5]. destruct (E5 (proj1 K2)) as (k2 & Hk2 & Q3 & _). specialize (OB _ _ Hk2).
        unfold occs in E1. apply in_app_iff in E1. rewrite EW. apply in_app_iff. destruct E1 as [E1|E1]; [left; apply in_map_iff in E1; destruct E1 as (? & E1 & Q4); injection E1 as _ <-; exact Q4|right].
        apply boccs_in in E1. destruct E1 as (p & Hp & Q4 & Q5). rewrite EB in Hp. apply in_app_iff in Hp. unfold bvars. apply in_flat_map. exists p. split; [|exact Q5]. destruct Hp as [Hp|[<-|Hp]]; [exact Hp|cbn in Q4; lia|specialize (SL p Hp); lia].
      - intros Q n EKn Hn HW. assert (HNd : In n (map d_var d)) by (apply IN; apply in_app_iff; right; rewrite EB; unfold bvars; rewrite flat_map_app; apply in_app_iff; right; cbn; apply in_app_iff; right; exact Hn).
        apply in_map_iff in HNd. destruct HNd as (x & <- & Hx). specialize (K2 x Hx). rewrite EKn in K2. destruct (D3 x Hx) as [E1 E2 _ E4 _].
        unfold bvars in Hn. apply in_flat_map in Hn. destruct Hn as (p & Hp & Hn). pose proof (C6 pre (no, g) l EB Q p Hp) as LT. cbn in LT.
        assert (O1 : In (fst p, d_var x) (occs head body)). { unfold occs. apply in_app_iff. right. apply boccs_in. exists p. split; [rewrite EB; apply in_app_iff; right; right; exact Hp|auto]. }
        assert (O2 : exists k2, k2 <= no /\ In (k2, d_var x) (occs head body)).
        { apply in_app_iff in HW. destruct HW as [HW|HW].
          - rewrite EW in HW. apply in_app_iff in HW. destruct HW as [HW|HW].
            + exists 0. split; [lia|]. unfold occs. apply in_app_iff. left. apply in_map_iff. eauto.
            + unfold bvars in HW. apply in_flat_map in HW. destruct HW as (p2 & Hp2 & HW). exists (fst p2). split; [apply SP; exact Hp2|]. unfold occs. apply in_app_iff. right. apply boccs_in. exists p2. split; [rewrite EB; apply in_app_iff; auto|auto].
          - exists no. split; [lia|]. unfold occs. apply in_app_iff. right. apply boccs_in. exists (no, g). auto. }
        destruct O2 as (k2 & L2 & O2). assert (GE : 1 <= no) by (apply (C4 _ HIN)). destruct (E4 K2 _ O1) as [Q1|Q1]; [|lia]. specialize (E2 _ O2). lia.
      - intros ->. rewrite <- C5; [rewrite EB, map_app; cbn; symmetry; apply last_last|]. rewrite <- C1, EB, map_app. intros Q1. destruct pre; discriminate Q1.
      - intros Q NE. destruct l as [|p' l]; [congruence|]. pose proof (C6 pre (no, g) _ EB Q p' (or_introl eq_refl)) as LT. cbn in LT. assert (GE : 1 <= no) by (apply (C4 _ HIN)).
        assert (Q2 : fst p' <= nb) by (apply C4; rewrite EB; apply in_app_iff; right; right; left; reflexivity). lia.
      - apply (IH (pre ++ [(no, g)])).
        + rewrite EB, <- app_assoc. reflexivity.
        + rewrite EW, <- app_assoc. unfold bvars. rewrite flat_map_app. cbn. rewrite app_nil_r. reflexivity.
        + intros Q. apply orb_true_iff in Q. destruct Q as [Q|Q].
          * destruct (HLP Q) as (p & Hp & Q1). exists p. rewrite in_app_iff. auto.
          * exists (no, g). rewrite in_app_iff. apply Nat.eqb_eq in Q. cbn. auto. }
    apply (GEN body []); [reflexivity|unfold bvars; cbn; rewrite app_nil_r; reflexivity|discriminate].
Qed.
