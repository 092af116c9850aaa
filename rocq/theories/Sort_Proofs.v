Require Import ZArith List Bool PeanoNat Lia Permutation Sorted.
Require Import Verif.Sort_Model.
Import ListNotations.

Section Sort.
Variable A : Type.
Variable cmp : A -> A -> Z.
Notation upd := (upd A).
Notation copy := (copy A).
Notation merge_loop := (merge_loop A cmp).
Notation dedup_loop := (dedup_loop A cmp).
Notation Merge_Sort := (Merge_Sort A cmp).

(** ** reading an array segment *)
Definition rd (m : nat -> A) (a n : nat) : list A := map m (seq a n).

Lemma rd_length m a n : length (rd m a n) = n.
Proof. unfold rd. now rewrite map_length, seq_length. Qed.
Lemma rd_S m a n : rd m a (S n) = m a :: rd m (S a) n.
Proof. reflexivity. Qed.
Lemma rd_app m a n k : rd m a (n + k) = rd m a n ++ rd m (a + n) k.
Proof. unfold rd. now rewrite seq_app, map_app. Qed.
Lemma rd_snoc m a n : rd m a (S n) = rd m a n ++ [m (a + n)].
Proof. replace (S n) with (n + 1) by lia. now rewrite rd_app. Qed.
Lemma rd_ext m m' a n : (forall i, a <= i < a + n -> m i = m' i) -> rd m a n = rd m' a n.
Proof.
  intros H. unfold rd. apply map_ext_in. intros i I. apply in_seq in I. apply H; lia.
Qed.
Lemma upd_same m p x : upd m p x p = x.
Proof. unfold Sort_Model.upd. now rewrite Nat.eqb_refl. Qed.
Lemma upd_other m p x i : i <> p -> upd m p x i = m i.
Proof. intros H. unfold Sort_Model.upd. now apply Nat.eqb_neq in H as ->. Qed.
Lemma rd_upd_other m p x a n : p < a \/ a + n <= p -> rd (upd m p x) a n = rd m a n.
Proof. intros H. apply rd_ext. intros i I. apply upd_other. lia. Qed.

Lemma copy_spec n : forall m p l, (p <= l \/ l + n <= p) ->
  rd (copy m p l n) p n = rd m l n /\
  (forall i, i < p \/ p + n <= i -> copy m p l n i = m i).
Proof.
  induction n as [|n IH]; intros m p l D; cbn [Sort_Model.copy]; [split; auto|].
  destruct (IH (upd m p (m l)) (S p) (S l)) as [R F]; [lia|]. split.
  - rewrite !rd_S. f_equal.
    + rewrite F by lia. apply upd_same.
    + rewrite R. apply rd_ext. intros i I. apply upd_other; lia.
  - intros i I. rewrite F by lia. apply upd_other; lia.
Qed.

(** ** the functions on lists *)
Fixpoint lmerge (l1 l2 : list A) : list A :=
  match l1 with
  | [] => l2
  | x :: l1' =>
    (fix aux l2 := match l2 with
     | [] => l1
     | y :: l2' => if (cmp x y <=? 0)%Z then x :: lmerge l1' l2 else y :: aux l2'
     end) l2
  end.
Lemma lmerge_cons x l1 y l2 : lmerge (x :: l1) (y :: l2) =
  if (cmp x y <=? 0)%Z then x :: lmerge l1 (y :: l2) else y :: lmerge (x :: l1) l2.
Proof. reflexivity. Qed.
Lemma lmerge_nil_r l : lmerge l [] = l.
Proof. destruct l; reflexivity. Qed.

Fixpoint ldedup (x : A) (l : list A) : list A :=
  match l with
  | [] => [x]
  | y :: l => if (cmp x y <? 0)%Z then x :: ldedup y l else ldedup x l
  end.
Definition ldd (l : list A) := match l with [] => [] | x :: l => ldedup x l end.

Fixpoint lsort (fuel : nat) (kd : bool) (l : list A) : list A :=
  match fuel with
  | O => l
  | S fuel =>
    if length l <=? 1 then l
    else
      let k := length l / 2 in
      let r := lmerge (lsort fuel kd (firstn k l)) (lsort fuel kd (skipn k l)) in
      if kd then r else ldd r
  end.

(** the merge loop: what is already written, followed by what is left, is the merge *)
Lemma merge_loop_spec fuel : forall m p l1 n1 l2 n2,
  n1 + n2 <= fuel ->
  l1 + n1 <= p -> l2 + n2 <= p ->
  let '(m', (p', l1', n1', l2', n2')) := merge_loop fuel m p l1 n1 l2 n2 in
  (n1' = 0 \/ n2' = 0) /\ n1' <= n1 /\ n2' <= n2 /\ l1' = l1 + (n1 - n1') /\ l2' = l2 + (n2 - n2') /\
  p' = p + (n1 - n1') + (n2 - n2') /\
  (forall i, i < p \/ p' <= i -> m' i = m i) /\
  lmerge (rd m l1 n1) (rd m l2 n2) = rd m' p (p' - p) ++ rd m l1' n1' ++ rd m l2' n2'.
Proof.
  induction fuel as [|fuel IH]; intros m p l1 n1 l2 n2 F D1 D2; cbn [Sort_Model.merge_loop].
  { assert (n1 = 0) by lia. assert (n2 = 0) by lia. subst. cbn. rewrite !Nat.sub_diag.
    repeat split; auto; lia. }
  destruct n1 as [|n1].
  { repeat split; auto; try lia. rewrite !Nat.sub_diag. reflexivity. }
  destruct n2 as [|n2].
  { repeat split; auto; try lia. rewrite !Nat.sub_diag. cbn [rd seq map app].
    rewrite app_nil_r. apply lmerge_nil_r. }
  rewrite !rd_S, lmerge_cons.
  destruct (cmp (m l1) (m l2) <=? 0)%Z.
  - specialize (IH (upd m p (m l1)) (S p) (S l1) n1 l2 (S n2) ltac:(lia) ltac:(lia) ltac:(lia)).
    destruct (merge_loop fuel (upd m p (m l1)) (S p) (S l1) n1 l2 (S n2))
      as [m' [[[[p' l1'] n1'] l2'] n2']].
    destruct IH as (E0 & N1 & N2 & L1 & L2 & P & Fr & M).
    repeat split; try lia.
    + intros i I. rewrite Fr by lia. apply upd_other; lia.
    + rewrite <- rd_S. rewrite !(rd_upd_other m) in M by lia. rewrite M.
      replace (p' - p) with (S (p' - S p)) by lia. rewrite rd_S. cbn [app]. f_equal.
      rewrite Fr by lia. now rewrite upd_same.
  - specialize (IH (upd m p (m l2)) (S p) l1 (S n1) (S l2) n2 ltac:(lia) ltac:(lia) ltac:(lia)).
    destruct (merge_loop fuel (upd m p (m l2)) (S p) l1 (S n1) (S l2) n2)
      as [m' [[[[p' l1'] n1'] l2'] n2']].
    destruct IH as (E0 & N1 & N2 & L1 & L2 & P & Fr & M).
    repeat split; try lia.
    + intros i I. rewrite Fr by lia. apply upd_other; lia.
    + rewrite <- rd_S. rewrite !(rd_upd_other m) in M by lia. rewrite M.
      replace (p' - p) with (S (p' - S p)) by lia. rewrite rd_S. cbn [app]. f_equal.
      rewrite Fr by lia. now rewrite upd_same.
Qed.

Lemma ldedup_nonempty l : forall x, 1 <= length (ldedup x l).
Proof. induction l as [|y l IH]; intros x; cbn; [lia|]. destruct (_ <? _)%Z; cbn; [lia|auto]. Qed.
Lemma ldedup_le l : forall x, length (ldedup x l) <= S (length l).
Proof.
  induction l as [|y l IH]; intros x; cbn; [lia|]. destruct (_ <? _)%Z; cbn.
  - specialize (IH y); lia.
  - specialize (IH x); lia.
Qed.

(** the duplicate removal loop *)
Lemma dedup_loop_spec k : forall m base p n, base < p -> k < n ->
  let '(m', n') := dedup_loop m base p k n in
  (forall i, i < base \/ base + k < i -> m' i = m i) /\
  n' = n - S k + length (ldedup (m base) (rd m p k)) /\
  rd m' base (n' - (n - S k)) = ldedup (m base) (rd m p k).
Proof.
  induction k as [|k IH]; intros m base p n D L; cbn [Sort_Model.dedup_loop].
  { repeat split; auto; cbn; [lia|]. replace (n - (n - 1)) with 1 by lia. reflexivity. }
  rewrite rd_S. cbn [ldedup]. destruct (cmp (m base) (m p) <? 0)%Z.
  - specialize (IH (upd m (S base) (m p)) (S base) (S p) n ltac:(lia) ltac:(lia)).
    destruct (dedup_loop (upd m (S base) (m p)) (S base) (S p) k n) as [m' n'].
    rewrite upd_same in IH. destruct IH as (Fr & N & R).
    rewrite (rd_upd_other m) in * by lia. repeat split.
    + intros i I. rewrite Fr by lia. apply upd_other; lia.
    + cbn [length]. lia.
    + assert (1 <= length (ldedup (m p) (rd m (S p) k))) by apply ldedup_nonempty.
      replace (n' - (n - S (S k))) with (S (n' - (n - S k))) by lia. rewrite rd_S, R. f_equal.
      rewrite Fr by lia. apply upd_other; lia.
  - specialize (IH m base (S p) (n - 1) ltac:(lia) ltac:(lia)).
    destruct (dedup_loop m base (S p) k (n - 1)) as [m' n'].
    destruct IH as (Fr & N & R). repeat split.
    + intros i I. apply Fr. lia.
    + lia.
    + rewrite <- R. f_equal. lia.
Qed.

Lemma lmerge_length l1 : forall l2, length (lmerge l1 l2) = length l1 + length l2.
Proof.
  induction l1 as [|x l1 IH1]; [reflexivity|].
  induction l2 as [|y l2 IH2]; [cbn; lia|]. rewrite lmerge_cons.
  destruct (_ <=? _)%Z; cbn [length]; [rewrite IH1|rewrite IH2]; cbn; lia.
Qed.
Lemma ldd_le l : length (ldd l) <= length l.
Proof. destruct l; cbn; auto. apply ldedup_le. Qed.

(** Merge_Sort computes lsort in place, touching only the segment and aux *)
Lemma Merge_Sort_spec fuel kd : forall m base aux n, n <= fuel -> base + n <= aux ->
  let '(m', n') := Merge_Sort fuel m base aux n kd in
  (forall i, (i < base \/ base + n <= i) -> (i < aux \/ aux + n <= i) -> m' i = m i) /\
  n' = length (lsort fuel kd (rd m base n)) /\ n' <= n /\
  rd m' base n' = lsort fuel kd (rd m base n).
Proof.
  induction fuel as [|fuel IH]; intros m base aux n F D; cbn [Sort_Model.Merge_Sort lsort].
  { repeat split; auto. now rewrite rd_length. }
  rewrite rd_length. destruct (Nat.leb_spec n 1) as [Hn|Hn].
  { repeat split; auto. now rewrite rd_length. }
  set (k := n / 2).
  assert (K : 1 <= k /\ k < n).
  { subst k. split; [apply Nat.div_le_lower_bound; lia|apply Nat.div_lt; lia]. }
  assert (FS : firstn k (rd m base n) = rd m base k /\ skipn k (rd m base n) = rd m (base + k) (n - k)).
  { replace n with (k + (n - k)) at 1 2 by lia. rewrite rd_app.
    rewrite firstn_app, skipn_app, rd_length, Nat.sub_diag. cbn [firstn skipn].
    rewrite firstn_all2, skipn_all2 by (rewrite rd_length; lia). split; [apply app_nil_r|reflexivity]. }
  destruct FS as [-> ->].
  pose proof (IH m base aux k ltac:(lia) ltac:(lia)) as S1.
  destruct (Merge_Sort fuel m base aux k kd) as [m1 n1]. destruct S1 as (Fr1 & N1 & L1 & R1).
  pose proof (IH m1 (base + k) aux (n - k) ltac:(lia) ltac:(lia)) as S2.
  destruct (Merge_Sort fuel m1 (base + k) aux (n - k) kd) as [m2 n2].
  assert (X : rd m1 (base + k) (n - k) = rd m (base + k) (n - k)).
  { apply rd_ext. intros i I. apply Fr1; lia. }
  rewrite X in S2. destruct S2 as (Fr2 & N2 & L2 & R2).
  assert (R1' : rd m2 base n1 = lsort fuel kd (rd m base k)).
  { rewrite <- R1. apply rd_ext. intros i I. apply Fr2; lia. }
  set (s1 := lsort fuel kd (rd m base k)) in *.
  set (s2 := lsort fuel kd (rd m (base + k) (n - k))) in *.
  pose proof (merge_loop_spec (n1 + n2) m2 aux base n1 (base + k) n2 ltac:(lia) ltac:(lia) ltac:(lia)) as S3.
  destruct (merge_loop (n1 + n2) m2 aux base n1 (base + k) n2) as [m3 [[[[p l1'] n1'] l2'] n2']].
  destruct S3 as (Z3 & M1 & M2 & Q1 & Q2 & P3 & Fr3 & R3). rewrite R1', R2 in R3.
  destruct (copy_spec n1' m3 p l1' ltac:(lia)) as [C4 Fr4].
  set (m4 := copy m3 p l1' n1') in *.
  assert (A4 : rd m4 aux (n1 + n2 - n2') = rd m3 aux (p - aux) ++ rd m2 l1' n1').
  { replace (n1 + n2 - n2') with ((p - aux) + n1') by lia. rewrite rd_app. f_equal.
    - apply rd_ext. intros i I. apply Fr4; lia.
    - replace (aux + (p - aux)) with p by lia. rewrite C4. apply rd_ext. intros i I. apply Fr3. lia. }
  pose proof (lmerge_length s1 s2) as LM. rewrite <- N1, <- N2 in LM.
  destruct kd.
  - destruct (copy_spec (n1 + n2 - n2') m4 base aux ltac:(lia)) as [C5 Fr5].
    set (m5 := copy m4 base aux (n1 + n2 - n2')) in *. cbv beta iota zeta.
    assert (FN : forall j, j <= n -> 1 <= j -> length (lsort fuel true (rd m j n)) = n -> True) by auto.
    assert (K1 : n1 = k).
    { rewrite N1. subst s1. clear -cmp.
      assert (G : forall f l, length (lsort f true l) = length l).
      { induction f as [|f IHf]; intros l; cbn [lsort]; auto. destruct (_ <=? 1); auto.
        rewrite lmerge_length, !IHf, firstn_length, skipn_length.
        pose proof (Nat.div_le_upper_bound (length l) 2 (length l) ltac:(lia) ltac:(lia)). lia. }
      rewrite G. apply rd_length. }
    repeat split.
    + intros i I1 I2. rewrite Fr5 by lia. rewrite Fr4 by lia. rewrite Fr3 by lia.
      rewrite Fr2 by lia. apply Fr1; lia.
    + lia.
    + lia.
    + rewrite R3. replace (n1 + n2) with ((n1 + n2 - n2') + n2') by lia. rewrite rd_app, C5, A4.
      rewrite <- app_assoc. do 2 f_equal.
      transitivity (rd m2 (base + (n1 + n2 - n2')) n2').
      * apply rd_ext. intros i I. rewrite Fr5 by lia. rewrite Fr4 by lia. apply Fr3. lia.
      * f_equal. lia.
  - destruct (copy_spec n2' m4 (p + n1') l2' ltac:(lia)) as [C5 Fr5].
    set (m5 := copy m4 (p + n1') l2' n2') in *.
    set (m6 := upd m5 base (m5 aux)).
    assert (A5 : rd m5 aux (n1 + n2) = lmerge s1 s2).
    { rewrite R3. replace (n1 + n2) with ((n1 + n2 - n2') + n2') by lia.
      rewrite rd_app, app_assoc. f_equal.
      - rewrite <- A4. apply rd_ext. intros i I. apply Fr5. lia.
      - replace (aux + (n1 + n2 - n2')) with (p + n1') by lia. rewrite C5.
        apply rd_ext. intros i I. rewrite Fr4 by lia. apply Fr3. lia. }
    assert (NE : 1 <= n1 + n2).
    { assert (G : forall f l, 1 <= length l -> 1 <= length (lsort f false l)).
      { induction f as [|f IHf]; intros l; cbn [lsort]; auto. destruct (Nat.leb_spec (length l) 1); auto.
        intros _. unfold ldd. set (r := lmerge _ _).
        assert (1 <= length r).
        { subst r. rewrite lmerge_length.
          assert (1 <= length l / 2 < length l).
          { split; [apply Nat.div_le_lower_bound; lia|apply Nat.div_lt; lia]. }
          specialize (IHf (firstn (length l / 2) l)). rewrite firstn_length in IHf. lia. }
        destruct r; [cbn in *; lia|]. apply ldedup_nonempty. }
      specialize (G fuel (rd m base k)). rewrite rd_length in G. fold s1 in G. lia. }
    pose proof (dedup_loop_spec (n1 + n2 - 1) m6 base (S aux) (n1 + n2) ltac:(lia) ltac:(lia)) as S6.
    destruct (dedup_loop m6 base (S aux) (n1 + n2 - 1) (n1 + n2)) as [m7 n7].
    assert (E6 : m6 base = m5 aux) by apply upd_same.
    assert (R6 : rd m6 (S aux) (n1 + n2 - 1) = rd m5 (S aux) (n1 + n2 - 1)) by (apply rd_upd_other; lia).
    rewrite E6, R6 in S6.
    replace (n1 + n2) with (S (n1 + n2 - 1)) in A5 by lia. rewrite rd_S in A5.
    rewrite <- A5 in *. cbn [ldd]. destruct S6 as (Fr7 & N7 & R7).
    repeat split.
    + intros i I1 I2. rewrite Fr7 by lia. unfold m6. rewrite upd_other by lia.
      rewrite Fr5 by lia. rewrite Fr4 by lia. rewrite Fr3 by lia. rewrite Fr2 by lia. apply Fr1; lia.
    + lia.
    + pose proof (ldedup_le (rd m5 (S aux) (n1 + n2 - 1)) (m5 aux)). rewrite rd_length in H. lia.
    + rewrite <- R7. f_equal. lia.
Qed.

(** ** properties of the sort on lists, for a total preorder on the elements
    satisfying P *)
Variable P : A -> Prop.
Hypothesis cmp_anti : forall x y, P x -> P y -> Z.sgn (cmp x y) = (- Z.sgn (cmp y x))%Z.
Hypothesis cmp_trans : forall x y z, P x -> P y -> P z ->
  (cmp x y <= 0 -> cmp y z <= 0 -> cmp x z <= 0 /\ (cmp x z = 0 -> cmp x y = 0 /\ cmp y z = 0))%Z.

Definition le x y := (cmp x y <= 0)%Z.
Definition lt x y := (cmp x y < 0)%Z.
Definition eqv x y := (cmp x y =? 0)%Z.

Lemma le_trans x y z : P x -> P y -> P z -> le x y -> le y z -> le x z.
Proof. unfold le. intros Px Py Pz H1 H2. now destruct (cmp_trans x y z Px Py Pz H1 H2). Qed.
Lemma lt_le_trans x y z : P x -> P y -> P z -> lt x y -> le y z -> lt x z.
Proof.
  unfold lt, le. intros Px Py Pz H1 H2. destruct (cmp_trans x y z Px Py Pz ltac:(lia) H2) as [H3 H4].
  destruct (Z.eq_dec (cmp x z) 0) as [E|E]; [|lia]. apply H4 in E. lia.
Qed.
Lemma cmp_refl x : P x -> cmp x x = 0%Z.
Proof. intros Px. pose proof (cmp_anti x x Px Px). lia. Qed.

Lemma lmerge_perm l1 : forall l2, Permutation (lmerge l1 l2) (l1 ++ l2).
Proof.
  induction l1 as [|x l1 IH1]; [reflexivity|].
  induction l2 as [|y l2 IH2]; [rewrite lmerge_nil_r, app_nil_r; reflexivity|]. rewrite lmerge_cons.
  destruct (_ <=? _)%Z.
  - rewrite IH1. reflexivity.
  - rewrite IH2. now rewrite Permutation_middle.
Qed.
Lemma ldedup_incl l : forall x, incl (ldedup x l) (x :: l).
Proof.
  induction l as [|y l IH]; intros x; cbn; [apply incl_refl|].
  destruct (_ <? _)%Z.
  - apply incl_cons; [now left|]. intros z I. apply IH in I. destruct I as [->|I]; cbn; auto.
  - intros z I. apply IH in I. destruct I as [->|I]; cbn; auto.
Qed.
Lemma ldd_incl l : incl (ldd l) l.
Proof. destruct l; cbn; [apply incl_refl|apply ldedup_incl]. Qed.
Lemma Forall_incl {B} (Q : B -> Prop) l l' : incl l l' -> Forall Q l' -> Forall Q l.
Proof. rewrite !Forall_forall. auto. Qed.
Lemma lmerge_Forall (Q : A -> Prop) l1 l2 : Forall Q l1 -> Forall Q l2 -> Forall Q (lmerge l1 l2).
Proof.
  intros H1 H2. eapply Permutation_Forall; [symmetry; apply lmerge_perm|]. now apply Forall_app.
Qed.
Lemma lsort_Forall (Q : A -> Prop) kd f : forall l, Forall Q l -> Forall Q (lsort f kd l).
Proof.
  induction f as [|f IH]; intros l H; cbn [lsort]; auto. destruct (_ <=? 1); auto.
  assert (X : Forall Q (lmerge (lsort f kd (firstn (length l / 2) l)) (lsort f kd (skipn (length l / 2) l)))).
  { rewrite <- (firstn_skipn (length l / 2) l) in H. apply Forall_app in H as [H1 H2].
    apply lmerge_Forall; apply IH; auto. }
  destruct kd; auto. eapply Forall_incl; [apply ldd_incl|auto].
Qed.

Lemma lmerge_sorted l1 : forall l2, Forall P l1 -> Forall P l2 ->
  StronglySorted le l1 -> StronglySorted le l2 -> StronglySorted le (lmerge l1 l2).
Proof.
  induction l1 as [|x l1 IH1]; [auto|].
  induction l2 as [|y l2 IH2]; intros P1 P2 S1 S2; [now rewrite lmerge_nil_r|].
  rewrite lmerge_cons.
  inversion P1 as [|? ? Px P1']; subst. inversion P2 as [|? ? Py P2']; subst.
  inversion S1 as [|? ? S1' F1]; subst. inversion S2 as [|? ? S2' F2]; subst.
  destruct (Z.leb_spec (cmp x y) 0) as [L|L].
  - constructor; [apply IH1; auto|]. apply lmerge_Forall; auto. constructor; auto.
    rewrite Forall_forall in *. intros z I. eapply (le_trans x y z); auto.
  - constructor; [apply IH2; auto|].
    assert (Lyx : le y x). { pose proof (cmp_anti x y Px Py). unfold le. lia. }
    apply lmerge_Forall; auto. constructor; auto.
    rewrite Forall_forall in *. intros z I. eapply (le_trans y x z); auto.
Qed.

Lemma ldedup_sorted l : forall x, Forall P (x :: l) -> StronglySorted le (x :: l) ->
  StronglySorted lt (ldedup x l) /\ (forall z, P z -> lt z x -> Forall (lt z) (ldedup x l)).
Proof.
  induction l as [|y l IH]; intros x Pl S; cbn.
  { split; [repeat constructor|]. intros z _ L. repeat constructor; auto. }
  inversion Pl as [|? ? Px Pl']; subst. inversion Pl' as [|? ? Py Pl'']; subst.
  inversion S as [|? ? S' F]; subst. inversion F as [|? ? Lxy F']; subst.
  inversion S' as [|? ? S'' F'']; subst.
  destruct (Z.ltb_spec (cmp x y) 0) as [L|L].
  - destruct (IH y Pl' S') as [G1 G2]. split.
    + constructor; auto.
    + intros z Pz Lz. constructor; auto. apply G2; auto. apply (lt_le_trans z x y); auto.
  - apply IH; [constructor|constructor]; auto.
Qed.

Lemma StronglySorted_weaken (R R' : A -> A -> Prop) l : (forall x y, R x y -> R' x y) ->
  StronglySorted R l -> StronglySorted R' l.
Proof.
  intros H. induction 1; constructor; auto. eapply Forall_impl; [|eauto]. auto.
Qed.

Lemma half_bounds n : 1 < n -> 1 <= n / 2 < n.
Proof. intros. split; [apply Nat.div_le_lower_bound; lia|apply Nat.div_lt; lia]. Qed.

Lemma lsort_sorted (kd : bool) f : forall l, length l <= f -> Forall P l ->
  StronglySorted (if kd then le else lt) (lsort f kd l).
Proof.
  induction f as [|f IH]; intros l L Pl; cbn [lsort].
  { destruct l; [constructor|cbn in L; lia]. }
  destruct (Nat.leb_spec (length l) 1) as [H|H].
  { destruct l as [|x [|y l]]; [constructor|repeat constructor|cbn in H; lia]. }
  pose proof (half_bounds _ H) as HB.
  assert (F1 : Forall P (firstn (length l / 2) l) /\ Forall P (skipn (length l / 2) l)).
  { rewrite <- (firstn_skipn (length l / 2) l) in Pl. now apply Forall_app in Pl. }
  destruct F1 as [F1 F2].
  assert (S : StronglySorted le (lmerge (lsort f kd (firstn (length l / 2) l))
                                        (lsort f kd (skipn (length l / 2) l)))).
  { apply lmerge_sorted; try (apply lsort_Forall; auto).
    - apply (StronglySorted_weaken (if kd then le else lt));
        [destruct kd; unfold le, lt; intros; lia|]. apply IH; auto. rewrite firstn_length; lia.
    - apply (StronglySorted_weaken (if kd then le else lt));
        [destruct kd; unfold le, lt; intros; lia|]. apply IH; auto. rewrite skipn_length; lia. }
  destruct kd; auto.
  assert (FP : Forall P (lmerge (lsort f false (firstn (length l / 2) l))
                                (lsort f false (skipn (length l / 2) l)))).
  { apply lmerge_Forall; apply lsort_Forall; auto. }
  match goal with |- StronglySorted _ (ldd ?x) => destruct x end; [constructor|].
  now apply ldedup_sorted.
Qed.

Lemma lsort_perm f : forall l, Permutation (lsort f true l) l.
Proof.
  induction f as [|f IH]; intros l; cbn [lsort]; auto. destruct (_ <=? 1); auto.
  rewrite lmerge_perm, !IH. now rewrite firstn_skipn.
Qed.

(** stability *)
Lemma eqv_filter_nil x a l : P x -> P a -> Forall P l -> Forall (le a) l -> lt x a ->
  filter (eqv x) l = [].
Proof.
  intros Px Pa Pl F L. induction l as [|b l IH]; auto. cbn.
  inversion F; subst. inversion Pl; subst.
  assert (lt x b) by (apply (lt_le_trans x a b); auto).
  unfold eqv, lt in *. destruct (Z.eqb_spec (cmp x b) 0); [lia|]. auto.
Qed.
Lemma eqv_lt x a b : P x -> P a -> P b -> eqv x b = true -> lt b a -> lt x a.
Proof.
  unfold eqv, lt. intros Px Pa Pb E L. apply Z.eqb_eq in E.
  destruct (cmp_trans x b a Px Pb Pa ltac:(lia) ltac:(lia)) as [H1 H2].
  destruct (Z.eq_dec (cmp x a) 0) as [Q|Q]; [|lia]. apply H2 in Q. lia.
Qed.

Lemma lmerge_filter x l1 : forall l2, P x -> Forall P l1 -> Forall P l2 ->
  StronglySorted le l1 -> StronglySorted le l2 ->
  filter (eqv x) (lmerge l1 l2) = filter (eqv x) l1 ++ filter (eqv x) l2.
Proof.
  induction l1 as [|a l1 IH1]; [auto|].
  induction l2 as [|b l2 IH2]; intros Px P1 P2 S1 S2;
    [now rewrite lmerge_nil_r, app_nil_r|].
  rewrite lmerge_cons.
  inversion P1 as [|? ? Pa P1']; subst. inversion P2 as [|? ? Pb P2']; subst.
  inversion S1 as [|? ? S1' F1]; subst. inversion S2 as [|? ? S2' F2]; subst.
  destruct (Z.leb_spec (cmp a b) 0) as [L|L].
  - cbn [filter]. rewrite IH1 by auto. destruct (eqv x a); reflexivity.
  - cbn [filter] in *. rewrite IH2 by auto.
    destruct (eqv x b) eqn:E; [|reflexivity].
    assert (Lba : lt b a). { pose proof (cmp_anti a b Pa Pb). unfold lt. lia. }
    assert (Lxa : lt x a) by (apply (eqv_lt x a b); auto).
    change (if eqv x a then a :: filter (eqv x) l1 else filter (eqv x) l1)
      with (filter (eqv x) (a :: l1)).
    rewrite (eqv_filter_nil x a (a :: l1)); auto.
    constructor; auto. unfold le. rewrite cmp_refl; auto; lia.
Qed.

Lemma lsort_stable x f : forall l, length l <= f -> P x -> Forall P l ->
  filter (eqv x) (lsort f true l) = filter (eqv x) l.
Proof.
  induction f as [|f IH]; intros l L Px Pl; cbn [lsort]; auto.
  destruct (Nat.leb_spec (length l) 1) as [H|H]; auto.
  pose proof (half_bounds _ H) as HB.
  assert (F : Forall P (firstn (length l / 2) l) /\ Forall P (skipn (length l / 2) l)).
  { rewrite <- (firstn_skipn (length l / 2) l) in Pl. now apply Forall_app in Pl. }
  destruct F as [F1 F2].
  rewrite lmerge_filter; auto; try (apply lsort_Forall; auto);
    try (apply (lsort_sorted true); auto; rewrite ?firstn_length, ?skipn_length; lia).
  rewrite !IH; auto; try (rewrite ?firstn_length, ?skipn_length; lia).
  rewrite <- filter_app. now rewrite firstn_skipn.
Qed.

Lemma ldedup_filter z l : forall x, P z -> Forall P (x :: l) -> StronglySorted le (x :: l) ->
  filter (eqv z) (ldedup x l) = firstn 1 (filter (eqv z) (x :: l)).
Proof.
  induction l as [|y l IH]; intros x Pz Pl S; cbn.
  { destruct (eqv z x); reflexivity. }
  inversion Pl as [|? ? Px Pl']; subst. inversion Pl' as [|? ? Py Pl'']; subst.
  inversion S as [|? ? S' F]; subst. inversion F as [|? ? Lxy F']; subst.
  inversion S' as [|? ? S'' F'']; subst.
  destruct (Z.ltb_spec (cmp x y) 0) as [L|L].
  - cbn [filter]. rewrite (IH y Pz Pl' S').
    destruct (eqv z x) eqn:E; [|reflexivity].
    assert (Lzy : lt z y) by (apply (eqv_lt z y x); auto).
    rewrite (eqv_filter_nil z y (y :: l)); auto.
    constructor; auto. unfold le. rewrite cmp_refl; auto; lia.
  - rewrite IH; [|auto|constructor; auto|constructor; auto]. cbn [filter].
    destruct (eqv z x) eqn:E; [reflexivity|].
    destruct (eqv z y) eqn:E'; [|reflexivity].
    exfalso. unfold eqv, le in *. apply Z.eqb_eq in E'. apply Z.eqb_neq in E.
    pose proof (cmp_anti x y Px Py). pose proof (cmp_anti x z Px Pz). pose proof (cmp_anti y z Py Pz).
    destruct (cmp_trans x y z Px Py Pz ltac:(lia) ltac:(lia)) as [G1 G2].
    destruct (cmp_trans z y x Pz Py Px ltac:(lia) ltac:(lia)) as [G3 G4]. lia.
Qed.

Lemma firstn1_app (a b : list A) : firstn 1 (firstn 1 a ++ firstn 1 b) = firstn 1 (a ++ b).
Proof. destruct a as [|x [|y a]], b as [|z [|t b]]; reflexivity. Qed.

Lemma lsort_first x f : forall l, length l <= f -> P x -> Forall P l ->
  filter (eqv x) (lsort f false l) = firstn 1 (filter (eqv x) l).
Proof.
  induction f as [|f IH]; intros l L Px Pl; cbn [lsort].
  { destruct l; [reflexivity|cbn in L; lia]. }
  destruct (Nat.leb_spec (length l) 1) as [H|H].
  { destruct l as [|y [|? ?]]; [reflexivity|cbn|cbn in H; lia]. destruct (eqv x y); reflexivity. }
  pose proof (half_bounds _ H) as HB.
  assert (F : Forall P (firstn (length l / 2) l) /\ Forall P (skipn (length l / 2) l)).
  { rewrite <- (firstn_skipn (length l / 2) l) in Pl. now apply Forall_app in Pl. }
  destruct F as [F1 F2].
  pose proof (lsort_Forall P false f _ F1) as G1. pose proof (lsort_Forall P false f _ F2) as G2.
  assert (W : forall l', StronglySorted lt l' -> StronglySorted le l').
  { intros l'. apply StronglySorted_weaken. unfold lt, le; lia. }
  pose proof (W _ (lsort_sorted false f (firstn (length l / 2) l) ltac:(rewrite firstn_length; lia) F1)) as S1.
  pose proof (W _ (lsort_sorted false f (skipn (length l / 2) l) ltac:(rewrite skipn_length; lia) F2)) as S2.
  pose proof (lmerge_filter x _ _ Px G1 G2 S1 S2) as M.
  rewrite !IH in M; auto; try (rewrite ?firstn_length, ?skipn_length; lia).
  pose proof (lmerge_sorted _ _ G1 G2 S1 S2) as SM.
  pose proof (lmerge_Forall P _ _ G1 G2) as GM.
  destruct (lmerge (lsort f false (firstn (length l / 2) l)) (lsort f false (skipn (length l / 2) l)))
    as [|y r] eqn:E.
  - cbn [ldd filter] in *. apply (f_equal (firstn 1)) in M. rewrite firstn1_app in M.
    rewrite <- filter_app, firstn_skipn in M. rewrite <- M. reflexivity.
  - cbn [ldd]. rewrite ldedup_filter by auto. rewrite M, firstn1_app, <- filter_app, firstn_skipn.
    reflexivity.
Qed.

(** ** the built-ins *)
Lemma Sort_List_lsort ty d l : Sort_List A cmp ty d l = lsort (length l) (negb (Nat.eqb ty 0)) l.
Proof.
  destruct l as [|x [|y l]]; [reflexivity|reflexivity|].
  unfold Sort_List. set (L := x :: y :: l). set (m := fun i => nth i L d).
  pose proof (Merge_Sort_spec (length L) (negb (Nat.eqb ty 0)) m 0 (length L) (length L)
    ltac:(lia) ltac:(lia)) as H.
  destruct (Merge_Sort _ _ _ _ _ _) as [m' n']. destruct H as (_ & N & _ & R).
  assert (E : rd m 0 (length L) = L).
  { clear. subst m. unfold rd. revert d. induction L as [|a L IH]; intros d; [reflexivity|].
    cbn [length seq map nth]. f_equal. rewrite <- seq_shift, map_map. apply IH. }
  rewrite E in R. exact R.
Qed.

End Sort.
