(** Proofs about first argument dispatch (C44). *)
Require Import ZArith List Bool Lia Permutation.
Require Import Verif.Heap_Model Verif.Switch_Model Verif.Atom_Proofs.
Import ListNotations.
Open Scope Z_scope.

(** what a switch must do: the code of the key or none *)
Fixpoint assoc (l : list (Z * Z)) (k : Z) : option Z :=
  match l with [] => None | (k', c) :: l => if k =? k' then Some c else assoc l k end.
Lemma assoc_in l k c : NoDup (map fst l) -> In (k, c) l -> assoc l k = Some c.
Proof.
  induction l as [|[k' c'] l IH]; intros ND I; [destruct I|]. cbn [assoc map fst] in *. inversion ND as [|? ? Nk Nl]; subst. destruct I as [E|I].
  - inversion E; subst. now rewrite Z.eqb_refl.
  - destruct (Z.eqb_spec k k') as [->|]; [|auto]. exfalso. apply Nk. apply in_map_iff. exists (k', c). auto.
Qed.
Lemma assoc_some l k c : assoc l k = Some c -> In (k, c) l.
Proof. induction l as [|[k' c'] l IH]; cbn [assoc]; intros Q; [discriminate|]. destruct (Z.eqb_spec k k') as [->|]; [left; congruence|right; auto]. Qed.
Lemma assoc_none l k : assoc l k = None -> forall c, ~ In (k, c) l.
Proof.
  induction l as [|[k' c'] l IH]; cbn [assoc]; intros Q c I; [destruct I|]. destruct (Z.eqb_spec k k') as [->|N]; [discriminate|].
  destruct I as [E|I]; [congruence|exact (IH Q c I)].
Qed.
Lemma assoc_not l k : (forall c, ~ In (k, c) l) -> assoc l k = None.
Proof. intros Q. destruct (assoc l k) as [c|] eqn:E; [|reflexivity]. destruct (Q c). now apply assoc_some. Qed.

Section Hash.
Variable size : Z.
Hypothesis Hsize : 1 <= size <= 2 ^ 31.
Notation at_ i0 k := ((i0 + k) mod size).
Definition sstop (t : swt_tbl) (key i : Z) : Prop := scode (t i) = 0 \/ skey (t i) = key.
Lemma sloop t key i0 : 0 <= i0 < size -> forall n k j, 0 <= k <= j -> j < size -> Z.of_nat n = size - k -> sstop t key (at_ i0 j) ->
  exists x, k <= x <= j /\ locate_swt_loop n t size key (at_ i0 k) = Ret (at_ i0 x) /\ sstop t key (at_ i0 x) /\ forall y, k <= y < x -> ~ sstop t key (at_ i0 y).
Proof.
  intros R. induction n as [|n IH]; intros k j K J E St; [lia|]. cbn [locate_swt_loop]. pose proof (at_range size Hsize i0 k) as Ra.
  destruct (Z.leb_spec 0 (at_ i0 k)); [|lia]. destruct (Z.ltb_spec (at_ i0 k) size); [|lia]. cbn [andb].
  destruct (Z.eqb_spec (scode (t (at_ i0 k))) 0) as [Q|Q]; cbn [negb andb].
  { exists k. split; [lia|]. split; [reflexivity|]. split; [now left|intros; lia]. }
  destruct (Z.eqb_spec (skey (t (at_ i0 k))) key) as [Q2|Q2]; cbn [negb andb].
  { exists k. split; [lia|]. split; [reflexivity|]. split; [now right|intros; lia]. }
  assert (Ns : ~ sstop t key (at_ i0 k)) by (intros [A|A]; contradiction).
  assert (k <> j) by (intros ->; contradiction). cbv zeta. rewrite (at_step size Hsize i0 k) by lia.
  destruct (IH (k + 1) j ltac:(lia) J ltac:(lia) St) as [x [Rx [Ex [Sx Hx]]]]. exists x. split; [lia|]. split; [exact Ex|]. split; [exact Sx|].
  intros y Ry. destruct (Z.eq_dec y k) as [->|]; [exact Ns|]. apply Hx. lia.
Qed.
Definition sused (t : swt_tbl) (i : Z) : bool := negb (scode (t i) =? 0).
Record sinv (t : swt_tbl) (l : list (Z * Z)) : Prop := {
  s_cell : forall i, 0 <= i < size -> scode (t i) <> 0 -> In (skey (t i), scode (t i)) l;
  s_key : forall k c, In (k, c) l -> exists j, 0 <= j < size /\ t (at_ (k mod size) j) = Swt k c /\ forall x, 0 <= x < j -> scode (t (at_ (k mod size) x)) <> 0;
  s_code : forall k c, In (k, c) l -> c <> 0;
  s_nb : length (filter (sused t) (cells size)) = length l
}.
Lemma sfree t l : sinv t l -> Z.of_nat (length l) < size -> exists i, 0 <= i < size /\ scode (t i) = 0.
Proof.
  intros V L. destruct (existsb (fun i => negb (sused t i)) (cells size)) eqn:E.
  - apply existsb_exists in E as [i [I Q]]. apply (in_cells size Hsize) in I. exists i. split; [exact I|]. unfold sused in Q. rewrite negb_involutive in Q. now apply Z.eqb_eq.
  - exfalso. assert (G : forall c, existsb (fun i => negb (sused t i)) c = false -> filter (sused t) c = c).
    { induction c as [|i c IH]; cbn; auto. destruct (sused t i); cbn; [|discriminate]. intros Q. now rewrite IH. }
    pose proof (s_nb _ _ V) as Nb. rewrite (G _ E) in Nb. unfold cells in Nb. rewrite map_length, seq_length in Nb. lia.
Qed.
Lemma slocate t l k : sinv t l -> NoDup (map fst l) -> Z.of_nat (length l) < size -> 0 <= k ->
  exists i, locate_swt_loop (Z.to_nat size) t size k (Z.rem k size) = Ret i /\ 0 <= i < size /\
    match assoc l k with
    | Some c => t i = Swt k c
    | None => scode (t i) = 0 /\ exists j, 0 <= j < size /\ i = at_ (k mod size) j /\ forall x, 0 <= x < j -> scode (t (at_ (k mod size) x)) <> 0
    end.
Proof.
  intros V ND L Pk. rewrite Z.rem_mod_nonneg by lia. set (i0 := k mod size). assert (R0 : 0 <= i0 < size) by (apply Z.mod_pos_bound; lia).
  destruct (sfree t l V L) as [i [Ri Fi]].
  assert (St : sstop t k (at_ i0 ((i - i0) mod size))).
  { left. rewrite Zplus_mod_idemp_r. replace (i0 + (i - i0)) with i by ring. now rewrite Z.mod_small. }
  assert (Rj : 0 <= (i - i0) mod size < size) by (apply Z.mod_pos_bound; lia).
  destruct (sloop t k i0 R0 (Z.to_nat size) 0 _ ltac:(split; [lia|exact (proj1 Rj)]) ltac:(lia) ltac:(lia) St) as [x [Rx [Ex [Sx Hx]]]].
  rewrite (at_0 size i0 R0) in Ex. exists (at_ i0 x). split; [exact Ex|]. pose proof (at_range size Hsize i0 x) as Ra. split; [exact Ra|].
  destruct (assoc l k) as [c|] eqn:A.
  - apply assoc_some in A. destruct (s_key _ _ V k c A) as [j [Rjj [Tj Hj]]]. fold i0 in Tj, Hj.
    destruct (Z.eq_dec (scode (t (at_ i0 x))) 0) as [E0|N].
    + exfalso. destruct (Z.lt_trichotomy x j) as [C|[C|C]].
      * exact (Hj x ltac:(lia) E0).
      * subst x. rewrite Tj in E0. exact (s_code _ _ V _ _ A E0).
      * apply (Hx j ltac:(lia)). right. now rewrite Tj.
    + destruct Sx as [Q|Q]; [contradiction|]. pose proof (s_cell _ _ V _ Ra N) as I. rewrite Q in I.
      assert (scode (t (at_ i0 x)) = c) by (pose proof (assoc_in _ _ _ ND A); pose proof (assoc_in _ _ _ ND I); congruence).
      destruct (t (at_ i0 x)); cbn in *; congruence.
  - destruct Sx as [Q|Q].
    + split; [exact Q|]. exists x. split; [lia|]. split; [reflexivity|]. intros y Ry E. apply (Hx y ltac:(lia)). now left.
    + destruct (Z.eq_dec (scode (t (at_ i0 x))) 0) as [E0|N].
      * split; [exact E0|]. exists x. split; [lia|]. split; [reflexivity|]. intros y Ry E. apply (Hx y ltac:(lia)). now left.
      * exfalso. pose proof (s_cell _ _ V _ Ra N) as I. rewrite Q in I. exact (assoc_none _ _ A _ I).
Qed.
Lemma supd_eq t i x : supd t i x i = x. Proof. unfold supd. now rewrite Z.eqb_refl. Qed.
Lemma supd_neq t i x j : j <> i -> supd t i x j = t j. Proof. unfold supd. now destruct (Z.eqb_spec j i). Qed.
Lemma sadd t l k c : sinv t l -> NoDup (map fst l) -> Z.of_nat (length l) + 1 < size -> 0 <= k -> c <> 0 -> ~ In k (map fst l) ->
  exists t', Create_Swt_Element t (size - 1) k c = Ret t' /\ sinv t' (l ++ [(k, c)]).
Proof.
  intros V ND L Pk Nc Nk. unfold Create_Swt_Element, Locate_Swt_Element. rewrite Z.sub_add. destruct (slocate t l k V ND ltac:(lia) Pk) as [i [-> [Ri Hi]]]. cbn [bind].
  rewrite assoc_not in Hi by (intros c' I; apply Nk; apply in_map_iff; exists (k, c'); auto). destruct Hi as [Ei [j [Rj [Eq Hj]]]].
  eexists. split; [reflexivity|]. split.
  - intros x Rx Nx. apply in_or_app. destruct (Z.eq_dec x i) as [->|N]; [rewrite supd_eq; right; now left|]. rewrite supd_neq in * by auto. left. exact (s_cell _ _ V x Rx Nx).
  - assert (Hk : forall y, scode (t y) <> 0 -> scode (supd t i (Swt k c) y) <> 0).
    { intros y Q. destruct (Z.eq_dec y i) as [->|N]; [now rewrite supd_eq|now rewrite supd_neq]. }
    intros k' c' I. apply in_app_or in I as [I|[E|[]]].
    + destruct (s_key _ _ V k' c' I) as [j' [Rj' [Tj Hj']]]. exists j'. split; [exact Rj'|]. split; [|auto].
      rewrite supd_neq; [exact Tj|]. intros E. rewrite E in Tj. rewrite Tj in Ei. exact (s_code _ _ V _ _ I Ei).
    + inversion E; subst k' c'. exists j. split; [exact Rj|]. split; [rewrite <- Eq; apply supd_eq|auto].
  - intros k' c' I. apply in_app_or in I as [I|[E|[]]]; [exact (s_code _ _ V _ _ I)|]. inversion E; subst; auto.
  - rewrite (filter_upd (sused t) (sused (supd t i (Swt k c))) i); [rewrite (s_nb _ _ V), app_length; cbn; lia|exact (cells_nodup size)|now apply (in_cells size Hsize)| | |].
    + unfold sused. now rewrite Ei.
    + unfold sused. rewrite supd_eq. cbn [scode]. now destruct (Z.eqb_spec c 0).
    + intros x N. unfold sused. now rewrite supd_neq.
Qed.
Lemma sbuild : forall l2 t l1, sinv t l1 -> NoDup (map fst (l1 ++ l2)) -> Z.of_nat (length (l1 ++ l2)) + 1 <= size -> (forall k c, In (k, c) l2 -> 0 <= k /\ c <> 0) ->
  exists t', create_elements t (size - 1) l2 = Ret t' /\ sinv t' (l1 ++ l2).
Proof.
  induction l2 as [|[k c] l2 IH]; intros t l1 V ND L Hl; cbn [create_elements].
  - rewrite app_nil_r. eauto.
  - assert (Nk : ~ In k (map fst l1) /\ NoDup (map fst l1)).
    { rewrite map_app in ND. cbn [map fst] in ND. pose proof (NoDup_remove _ _ _ ND) as [A B]. split; [intros I; apply B; apply in_or_app; now left|].
      clear -A. revert A. generalize (map fst l1), (map fst l2). intros a b. induction a as [|x a IH]; intros A; [constructor|]. inversion A; subst.
      constructor; [intros I; apply H1; apply in_or_app; now left|auto]. }
    rewrite app_length in L. cbn [length] in L.
    destruct (Hl k c (or_introl eq_refl)) as [Pk Nc].
    destruct (sadd t l1 k c V (proj2 Nk) ltac:(lia) Pk Nc (proj1 Nk)) as [t' [-> V']]. cbn [bind].
    destruct (IH t' (l1 ++ [(k, c)]) V') as [t'' [E V'']].
    + now rewrite <- app_assoc.
    + rewrite <- app_assoc, app_length. cbn [length app]. lia.
    + intros k' c' I. apply Hl. now right.
    + rewrite <- app_assoc in V''. eauto.
Qed.
Lemma sempty : sinv Create_Swt_Table [].
Proof. split; try (intros; contradiction). cbn. induction (cells size); auto. Qed.
End Hash.
Lemma Switch_On_ok l k : NoDup (map fst l) -> Z.of_nat (length l) < 2 ^ 31 -> (forall k c, In (k, c) l -> 0 <= k /\ c <> 0) -> 0 <= k ->
  Switch_On l k = Ret (assoc l k).
Proof.
  intros ND L Hl Pk. unfold Switch_On, Build_Swt_Table. set (size := Z.of_nat (length l) + 1). assert (Hs : 1 <= size <= 2 ^ 31) by (unfold size; lia).
  replace (Z.of_nat (length l)) with (size - 1) by (unfold size; lia).
  destruct (sbuild size Hs l Create_Swt_Table [] (sempty size) ND ltac:(cbn [app]; unfold size; lia) Hl) as [t [-> V]]. cbn [bind app] in *.
  unfold Locate_Swt_Element. rewrite Z.sub_add. destruct (slocate size Hs t l k V ND ltac:(unfold size; lia) Pk) as [i [-> [Ri Hi]]]. cbn [bind].
  destruct (assoc l k) as [c|] eqn:A; [rewrite Hi; cbn [scode]|destruct Hi as [-> _]; reflexivity].
  destruct (Z.eqb_spec c 0) as [E|]; [|reflexivity]. destruct (Hl k c (assoc_some _ _ _ A)). contradiction.
Qed.

(** ** The binary search *)
Section Dicho.
Variable l : list (Z * Z).
Notation key i := (fst (nth (Z.to_nat i) l (0, 0))).
Notation lab i := (snd (nth (Z.to_nat i) l (0, 0))).
Lemma swt_at_ok i : 0 <= i < Z.of_nat (length l) -> swt_at l i = Ret (nth (Z.to_nat i) l (0, 0)).
Proof. intros R. unfold swt_at. destruct (Z.leb_spec 0 i); [|lia]. rewrite (nth_error_nth' l (0, 0)) by lia. reflexivity. Qed.
Lemma Switch_Equal_ok x i next : 0 <= i < Z.of_nat (length l) -> Switch_Equal l x i next = if x =? key i then Ret (Some (lab i)) else next.
Proof. intros R. unfold Switch_Equal. rewrite swt_at_ok by auto. reflexivity. Qed.
(** the label of [x] among the elements start..stop *)
Definition found (x start stop : Z) (r : option Z) : Prop :=
  match r with
  | Some c => exists i, start <= i <= stop /\ key i = x /\ lab i = c
  | None => forall i, start <= i <= stop -> key i <> x
  end.
Lemma Switch_Rec_ok x : (forall i j, 0 <= i < j -> j < Z.of_nat (length l) -> key i < key j) ->
  forall fuel start stop, 0 <= start <= stop -> stop < Z.of_nat (length l) -> stop - start < Z.of_nat fuel ->
  exists r, Switch_Rec fuel start stop l x = Ret r /\ found x start stop r.
Proof.
  intros Srt. induction fuel as [|f IH]; intros start stop R1 R2 Lf; [lia|]. cbn [Switch_Rec].
  assert (C : stop - start + 1 = 1 \/ stop - start + 1 = 2 \/ stop - start + 1 = 3 \/ 4 <= stop - start + 1) by lia.
  destruct C as [C|[C|[C|C]]].
  - rewrite C. rewrite Switch_Equal_ok by lia. destruct (Z.eqb_spec x (key start)) as [E|N].
    + eexists. split; [reflexivity|]. exists start. split; [lia|auto].
    + eexists. split; [reflexivity|]. intros i Ri. replace i with start by lia. auto.
  - rewrite C. rewrite !Switch_Equal_ok by lia. destruct (Z.eqb_spec x (key start)) as [E|N].
    + eexists. split; [reflexivity|]. exists start. split; [lia|auto].
    + destruct (Z.eqb_spec x (key stop)) as [E|N2]; (eexists; split; [reflexivity|]).
      * exists stop. split; [lia|auto].
      * intros i Ri. destruct (Z.eq_dec i start) as [->|]; [auto|]. replace i with stop by lia. auto.
  - rewrite C. rewrite !Switch_Equal_ok by lia. destruct (Z.eqb_spec x (key start)) as [E|N].
    + eexists. split; [reflexivity|]. exists start. split; [lia|auto].
    + destruct (Z.eqb_spec x (key (start + 1))) as [E|N1]; [eexists; split; [reflexivity|]; exists (start + 1); split; [lia|auto]|].
      destruct (Z.eqb_spec x (key stop)) as [E|N2]; (eexists; split; [reflexivity|]).
      * exists stop. split; [lia|auto].
      * intros i Ri. destruct (Z.eq_dec i start) as [->|]; [auto|]. destruct (Z.eq_dec i stop) as [->|]; [auto|]. replace i with (start + 1) by lia. auto.
  - match goal with |- exists r, ?m = Ret r /\ _ => replace m with (let mid := (start + stop) / 2 in
        Switch_Equal l x mid (do e <- swt_at l mid; if fst e <? x then Switch_Rec f (mid + 1) stop l x else Switch_Rec f start (mid - 1) l x)) end.
    2:{ rewrite <- Z.quot_div_nonneg by lia. revert C. generalize (stop - start + 1). intros z C. destruct z as [|[[p|p|]|[p|p|]|]|]; try reflexivity; lia. }
    cbv zeta. set (mid := (start + stop) / 2). assert (Rm : start + 1 <= mid <= stop - 1) by (unfold mid; split; [apply Z.div_le_lower_bound|apply Z.lt_succ_r; apply Z.div_lt_upper_bound]; lia).
    rewrite Switch_Equal_ok by lia. destruct (Z.eqb_spec x (key mid)) as [E|N]; [eexists; split; [reflexivity|]; exists mid; split; [lia|auto]|].
    rewrite swt_at_ok by lia. cbn [bind]. destruct (Z.ltb_spec (key mid) x) as [Lt|Ge].
    + destruct (IH (mid + 1) stop ltac:(lia) R2 ltac:(lia)) as [r [-> Fr]]. exists r. split; [reflexivity|]. destruct r as [c|]; cbn [found] in *.
      * destruct Fr as [i [Ri Q]]. exists i. split; [lia|exact Q].
      * intros i Ri E. destruct (Z_le_gt_dec i mid); [|exact (Fr i ltac:(lia) E)]. destruct (Z.eq_dec i mid) as [->|]; [lia|].
        pose proof (Srt i mid ltac:(lia) ltac:(lia)). lia.
    + destruct (IH start (mid - 1) ltac:(lia) ltac:(lia) ltac:(lia)) as [r [-> Fr]]. exists r. split; [reflexivity|]. destruct r as [c|]; cbn [found] in *.
      * destruct Fr as [i [Ri Q]]. exists i. split; [lia|exact Q].
      * intros i Ri E. destruct (Z_lt_ge_dec i mid); [exact (Fr i ltac:(lia) E)|]. destruct (Z.eq_dec i mid) as [->|]; [lia|].
        pose proof (Srt mid i ltac:(lia) ltac:(lia)). lia.
Qed.
End Dicho.
Lemma c_int_id x : - 2 ^ 31 <= x < 2 ^ 31 -> c_int x = x.
Proof. intros R. unfold c_int. rewrite Z.mod_small; lia. Qed.
Lemma Switch_Ret_ok l l' x : l <> [] -> NoDup (map fst l) -> (forall k c, In (k, c) l -> - 2 ^ 30 <= k < 2 ^ 30) ->
  qsorted Switch_Cmp_Int (switch_cases l) l' -> Switch_Ret l' x = Ret (assoc l x).
Proof.
  intros Nl ND Hl [Pm Srt]. assert (Ec : switch_cases l = l).
  { unfold switch_cases. clear -Hl. induction l as [|[k c] l IH]; [reflexivity|]. cbn [map fst snd]. rewrite IH by (intros; eapply Hl; right; eauto).
    rewrite c_int_id; [reflexivity|]. specialize (Hl k c (or_introl eq_refl)). lia. }
  rewrite Ec in *. assert (Hc : forall a b, In a l -> In b l -> Switch_Cmp_Int a b = fst a - fst b).
  { intros [k c] [k' c'] I I'. unfold Switch_Cmp_Int. cbn [fst]. apply c_int_id. specialize (Hl _ _ I) as A. specialize (Hl _ _ I') as B. lia. }
  assert (Cs : consistent Switch_Cmp_Int l).
  { split; [intros a b A B; rewrite !Hc by auto; rewrite <- Z.sgn_opp; f_equal; lia|]. intros a b c A B C. rewrite !Hc by auto. lia. }
  specialize (Srt Cs). assert (Nl' : (0 < length l')%nat) by (rewrite <- (Permutation_length Pm); destruct l; [congruence|cbn; lia]).
  assert (ND' : NoDup (map fst l')) by (eapply Permutation_NoDup; [apply Permutation_map; exact Pm|exact ND]).
  assert (Inl : forall i, (i < length l')%nat -> In (nth i l' (0, 0)) l) by (intros i R; eapply Permutation_in; [symmetry; exact Pm|now apply nth_In]).
  destruct (Switch_Rec_ok l' x) with (fuel := length l') (start := 0) (stop := Z.of_nat (length l') - 1) as [r [E Fr]]; try lia.
  { intros i j Ri Rj. pose proof (Srt (Z.to_nat i) (Z.to_nat j) ltac:(lia)) as Q. rewrite Hc in Q by (apply Inl; lia).
    assert (fst (nth (Z.to_nat i) l' (0, 0)) <> fst (nth (Z.to_nat j) l' (0, 0))); [|lia].
    intros E. assert (Z.to_nat i = Z.to_nat j); [|lia]. apply (proj1 (NoDup_nth (map fst l') 0) ND'); try (rewrite map_length; lia).
    change 0 with (fst (0, 0)). now rewrite !map_nth. }
  unfold Switch_Ret. rewrite E. f_equal. destruct r as [c|]; cbn [found] in Fr.
  - destruct Fr as [i [Ri [Ek El]]]. symmetry. apply assoc_in; [exact ND|]. replace (x, c) with (nth (Z.to_nat i) l' (0, 0)); [apply Inl; lia|].
    destruct (nth (Z.to_nat i) l' (0, 0)); cbn in *; congruence.
  - symmetry. apply assoc_not. intros c I. apply (Permutation_in _ Pm) in I. apply (In_nth _ _ (0, 0)) in I as [n [Rn En]].
    apply (Fr (Z.of_nat n)); [lia|]. rewrite Nat2Z.id, En. reflexivity.
Qed.

