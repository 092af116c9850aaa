(** Every operation keeps the invariant of FdTrail_Proofs. *)
Require Import ZArith List Bool Lia.
Require Import Verif.Word_Model Verif.Heap_Model Verif.FdTrail_Model Verif.FdTrail_Spec Verif.FdTrail_Proofs.
Import ListNotations.
Open Scope Z_scope.

Section P.
Variable vs : nat.
Hypothesis VS : (0 < vs)%nat.
Notation size := (size vs).
Notation Inv := (Inv vs).

Lemma gh_eta g : Gh ([] ++ objs g) (snaps g) (nxt g) = g. Proof. destruct g; reflexivity. Qed.
Lemma rw_ofs s x i : 4 <= i <= 8 -> rwords vs s x (x + i). Proof. left. lia. Qed.

(** an update that starts by saving the range *)
Lemma saved_op g s s' x nw : Inv g s -> In (x, KVar) (objs g) ->
  only (rwords vs s x) (Trail_Range_If_Necessary vs s x) s' ->
  m s' (x + 4) = m (Trail_Range_If_Necessary vs s x) (x + 4) ->
  (nw = [] /\ cs s' = cs s /\ (m s' (x + 8) = m s (x + 8) \/ m s' (x + 8) = 0)) \/ (nw = [(cs s, KVec)] /\ cs s' = cs s + Z.of_nat vs /\ m s' (x + 8) = cs s) ->
  Inv (Gh (nw ++ objs g) (snaps g) (nxt g)) s'.
Proof.
  intros I J (O1 & O2 & O3 & O4 & O5) S4 NW. destruct (save_range vs VS g s x I J) as (ne & T & F & S & K & C & D & M & M4 & SV).
  apply (range_op vs VS g s s' x ne nw I J); [rewrite O1; exact T|exact F|rewrite O2; exact S|rewrite O4; exact K|exact SV| | |rewrite S4, M4; lia|exact NW].
  - intros a A. left. rewrite O5; [apply M; lia|]. intros [Q|[[Q Q']|Q]].
    + lia.
    + destruct I as [I _]. destruct (inv_wf _ _ _ _ _ _ _ I) as [W1 W2 _]. destruct (W2 x KVar J (or_introl eq_refl)) as [_ [V|[V _]]]; [contradiction|].
      destruct (stacked_disj vs VS _ _ _ _ _ _ W1 V J) as [[? ?]|Z]; [discriminate|]. cbn [FdTrail_Spec.size] in Z. lia.
    + destruct I as [I _]. destruct (inv_wf _ _ _ _ _ _ _ I) as [W1 W2 _]. destruct (stacked_in vs VS _ _ _ _ W1 J) as (_ & Z & _). cbn [FdTrail_Spec.size] in Z. lia.
  - intros a A B. rewrite O5 by exact B. apply M. intros ->. apply B. left. lia.
Qed.
Ltac ofs := unfold FD_Tag_Value, FD_INT_Date, Nb_Elem, Range_w0, Range_w1, Vec, Range_Stamp, OFFSET_RANGE in *.
Lemma only_Min (P : Z -> Prop) s x n : P (Range_w0 x) -> only P s (set_Min s x n). Proof. intros H. apply only_put. exact H. Qed.
Lemma only_Max (P : Z -> Prop) s x n : P (Range_w1 x) -> only P s (set_Max s x n). Proof. intros H. apply only_put. exact H. Qed.
Lemma m_put_other s a v b : b <> a -> m (put s a v) b = m s b. Proof. intros N. unfold put, set_m. cbn [m]. apply wr_other; exact N. Qed.
Lemma m_put_same s a v : m (put s a v) a = v. Proof. unfold put, set_m. cbn [m]. apply wr_same. Qed.
Lemma cs_put s a v : cs (put s a v) = cs s. Proof. reflexivity. Qed.
Lemma cs_puts s a v : cs (puts s a v) = cs s. Proof. reflexivity. Qed.
Lemma cs_if (b : bool) s1 s2 c : cs s1 = c -> cs s2 = c -> cs (if b then s1 else s2) = c. Proof. destruct b; auto. Qed.
Lemma m_if (b : bool) s1 s2 a v : m s1 a = v -> m s2 a = v -> m (if b then s1 else s2) a = v. Proof. destruct b; auto. Qed.
Lemma range_cs g s x : Inv g s -> In (x, KVar) (objs g) -> cs (Trail_Range_If_Necessary vs s x) = cs s.
Proof. intros I J. destruct (save_range vs VS g s x I J) as (ne & _ & _ & _ & _ & C & _). exact C. Qed.
Lemma range_vec g s x : Inv g s -> In (x, KVar) (objs g) -> m (Trail_Range_If_Necessary vs s x) (x + 8) = m s (x + 8).
Proof. intros I J. destruct (save_range vs VS g s x I J) as (ne & _ & _ & _ & _ & _ & _ & M & _). apply M. lia. Qed.

(** setting the two bounds if they change *)
Lemma bounds_only (P : Z -> Prop) s x a b : P (Range_w0 x) -> P (Range_w1 x) ->
  let s1 := if Min s x =? a then s else set_Min s x a in let s2 := if Max s1 x =? b then s1 else set_Max s1 x b in
  only P s s2 /\ cs s2 = cs s /\ (forall i, i <> Range_w0 x -> i <> Range_w1 x -> m s2 i = m s i).
Proof.
  intros P0 P1 s1 s2. assert (A : only P s s1 /\ cs s1 = cs s /\ forall i, i <> Range_w0 x -> m s1 i = m s i).
  { unfold s1. destruct (Min s x =? a); [split; [apply only_refl|split; reflexivity]|]. split; [apply only_Min; exact P0|]. split; [reflexivity|]. intros i N. apply m_put_other. exact N. }
  destruct A as (A1 & A2 & A3). unfold s2. destruct (Max s1 x =? b).
  - split; [exact A1|]. split; [exact A2|]. intros i N _. apply A3. exact N.
  - split; [apply (only_trans _ _ _ _ A1), only_Max, P1|]. split; [exact A2|]. intros i N N'. unfold set_Max. rewrite m_put_other by exact N'. apply A3. exact N.
Qed.
Lemma interval_inv g s x nb mn mx : Inv g s -> In (x, KVar) (objs g) -> Inv g (Update_Interval_From_Interval vs s x nb mn mx).
Proof.
  intros I J. unfold Update_Interval_From_Interval. destruct (m s (Nb_Elem x) =? nb); [exact I|].
  set (s1 := Trail_Range_If_Necessary vs s x). set (s2 := put s1 (Nb_Elem x) nb).
  destruct (bounds_only (rwords vs s x) s2 x mn mx) as (A & B & C); [left; ofs; lia|left; ofs; lia|]. cbv zeta in A, B, C.
  rewrite <- (gh_eta g). apply (saved_op g s _ x [] I J).
  - apply (only_trans _ _ s2); [apply only_put; left; ofs; lia|exact A].
  - rewrite C by (ofs; lia). apply m_put_other. ofs; lia.
  - left. split; [reflexivity|]. split; [rewrite B; unfold s2; rewrite cs_put; apply (range_cs g s x I J)|]. left. rewrite C by (ofs; lia). unfold s2. rewrite m_put_other by (ofs; lia). apply (range_vec g s x I J).
Qed.
Lemma alloc_vec_spec s0 s x : (forall a, 4 <= a - x <= 8 -> rwords vs s0 x a) -> cs s = cs s0 -> m s (x + 8) = m s0 (x + 8) \/ m s (x + 8) = 0 ->
  let s1 := alloc_vec vs s x in
  only (rwords vs s0 x) s s1 /\ m s1 (x + 8) <> 0 \/ cs s0 = 0.
Proof.
  intros Q C V s1. destruct (Z.eq_dec (cs s0) 0) as [|NZ]; [now right|left]. unfold s1, alloc_vec, Is_Sparse. ofs. replace (x + 4 + 4) with (x + 8) by lia.
  destruct (Z.eqb_spec (m s (x + 8)) 0) as [E|E]; cbn [negb].
  - split; [apply (only_trans _ _ (put s (x + 8) (cs s))); [apply only_put, Q; lia|apply only_set_cs]|]. cbn [set_cs m]. rewrite m_put_same. congruence.
  - split; [apply only_refl|exact E].
Qed.
(** filling the vector of [x], fresh or not *)
Lemma vec_fill g s0 s x ws : Inv g s0 -> In (x, KVar) (objs g) -> cs s = cs s0 -> m s (x + 8) = m s0 (x + 8) -> length ws = vs ->
  let s1 := alloc_vec vs s x in let s2 := puts s1 (m s1 (Vec x)) (firstn vs ws) in
  only (rwords vs s0 x) s s2 /\ (forall a, a <> x + 8 -> 0 <= a - x <= 16 -> m s2 a = m s a) /\
  ((cs s2 = cs s0 /\ m s2 (x + 8) = m s0 (x + 8)) \/ (cs s2 = cs s0 + Z.of_nat vs /\ m s2 (x + 8) = cs s0)).
Proof.
  intros I J C V L s1 s2. assert (firstn vs ws = ws) as FE by (rewrite <- L; apply firstn_all). unfold s2. rewrite FE. clear s2 FE.
  destruct I as [I _]. destruct (inv_wf _ _ _ _ _ _ _ I) as [W1 W2 _]. destruct (stacked_in vs VS _ _ _ _ W1 J) as (X0 & X1 & _). cbn [FdTrail_Spec.size] in X1.
  unfold s1, alloc_vec, Is_Sparse. ofs. replace (x + 4 + 4) with (x + 8) by lia. rewrite V. destruct (Z.eqb_spec (m s0 (x + 8)) 0) as [E|E]; cbn [negb].
  - set (s2 := set_cs (put s (x + 8) (cs s)) (cs s + Z.of_nat vs)). assert (V2 : m s2 (x + 8) = cs s0) by (unfold s2; cbn [set_cs m]; rewrite m_put_same; exact C).
    rewrite V2. split.
    { apply (only_trans _ _ s2); [apply (only_trans _ _ (put s (x + 8) (cs s))); [apply only_put; left; lia|apply only_set_cs]|]. apply (only_puts vs VS). intros i Hi. right. right. lia. }
    split.
    { intros a N R. unfold puts, set_m. cbn [m]. rewrite (wrs_other vs VS) by lia. unfold s2. cbn [set_cs m]. apply m_put_other. exact N. }
    right. split; [rewrite cs_puts; unfold s2; cbn [set_cs cs]; lia|]. unfold puts, set_m. cbn [m]. rewrite (wrs_other vs VS) by lia. exact V2.
  - destruct (W2 x KVar J (or_introl eq_refl)) as [_ [V0|[V0 V1]]]; [contradiction|]. rewrite V.
    destruct (stacked_disj vs VS _ _ _ _ _ _ W1 V0 J) as [[? ?]|D]; [discriminate|]. cbn [FdTrail_Spec.size] in D.
    assert (OUT : forall a, 0 <= a - x <= 16 -> m (puts s (m s0 (x + 8)) ws) a = m s a) by (intros a R; unfold puts, set_m; cbn [m]; apply (wrs_other vs VS); lia).
    split; [apply (only_puts vs VS); intros i Hi; right; left; split; [exact E|lia]|]. split; [intros a _ R; apply OUT; exact R|].
    left. split; [rewrite cs_puts; exact C|]. rewrite OUT by lia. exact V.
Qed.
Lemma range_copy_spec g s0 s x r : Inv g s0 -> In (x, KVar) (objs g) -> cs s = cs s0 -> m s (x + 8) = m s0 (x + 8) -> match r_vec r with Some ws => length ws = vs | None => True end ->
  let s2 := Range_Copy vs s x r in
  only (rwords vs s0 x) s s2 /\ m s2 (x + 4) = m s (x + 4) /\
  ((cs s2 = cs s0 /\ (m s2 (x + 8) = m s0 (x + 8) \/ m s2 (x + 8) = 0)) \/ (cs s2 = cs s0 + Z.of_nat vs /\ m s2 (x + 8) = cs s0)).
Proof.
  intros I J C V L. unfold Range_Copy. set (s1 := set_Max (put s (Range_w0 x) (ints (r_extra r) (r_min r))) x (r_max r)). cbv zeta.
  assert (O : only (rwords vs s0 x) s s1) by (apply (only_trans _ _ (put s (Range_w0 x) (ints (r_extra r) (r_min r)))); [apply only_put; left; ofs; lia|apply only_Max; left; ofs; lia]).
  assert (E : forall i, i <> 6 -> i <> 7 -> m s1 (x + i) = m s (x + i)) by (intros i N1 N2; unfold s1, set_Max; rewrite !m_put_other by (ofs; lia); reflexivity).
  destruct (r_vec r) as [ws|].
  - destruct (vec_fill g s0 s1 x ws I J) as (A & B & D); [exact C|rewrite E by lia; exact V|exact L|]. cbv zeta in A, B, D.
    split; [apply (only_trans _ _ _ _ O A)|]. split; [rewrite B by lia; apply E; lia|]. destruct D as [[D1 D2]|D]; [left; auto|now right].
  - split; [apply (only_trans _ _ _ _ O); apply only_put; left; ofs; lia|]. split; [rewrite m_put_other by (ofs; lia); apply E; lia|].
    left. split; [rewrite cs_put; exact C|]. right. ofs. replace (x + 4 + 4) with (x + 8) by lia. apply m_put_same.
Qed.
Lemma cs_ge g s x s' : Inv g s -> (cs s' = cs s /\ (m s' (x + 8) = m s (x + 8) \/ m s' (x + 8) = 0)) \/ (cs s' = cs s + Z.of_nat vs /\ m s' (x + 8) = cs s) ->
  exists nw, (nw = [] /\ cs s' = cs s /\ (m s' (x + 8) = m s (x + 8) \/ m s' (x + 8) = 0)) \/ (nw = [(cs s, KVec)] /\ cs s' = cs s + Z.of_nat vs /\ m s' (x + 8) = cs s).
Proof. intros _ [[A B]|[A B]]; [exists []|exists [(cs s, KVec)]]; auto. Qed.
Lemma gh_vec g s s' nw : (nw = [] /\ cs s' = cs s) \/ (nw = [(cs s, KVec)] /\ cs s' = cs s + Z.of_nat vs) ->
  Gh (nw ++ objs g) (snaps g) (nxt g) = if cs s' =? cs s then g else Gh ((cs s, KVec) :: objs g) (snaps g) (nxt g).
Proof. intros [[-> E]|[-> E]]; rewrite E; [rewrite Z.eqb_refl; apply gh_eta|]. destruct (Z.eqb_spec (cs s + Z.of_nat vs) (cs s)); [lia|reflexivity]. Qed.
Lemma saved_op' g s s' x : Inv g s -> In (x, KVar) (objs g) ->
  only (rwords vs s x) (Trail_Range_If_Necessary vs s x) s' -> m s' (x + 4) = m (Trail_Range_If_Necessary vs s x) (x + 4) ->
  (cs s' = cs s /\ (m s' (x + 8) = m s (x + 8) \/ m s' (x + 8) = 0)) \/ (cs s' = cs s + Z.of_nat vs /\ m s' (x + 8) = cs s) ->
  Inv (if cs s' =? cs s then g else Gh ((cs s, KVec) :: objs g) (snaps g) (nxt g)) s'.
Proof.
  intros I J O E D. destruct (cs_ge g s x _ I D) as [nw NW]. rewrite <- (gh_vec g s s' nw) by (destruct NW as [(? & ? & _)|(? & ? & _)]; [left|right]; auto).
  apply (saved_op g s s' x nw I J O E NW).
Qed.

(** a trailed assignment of one word that is not a stamp nor the pointer to a vector *)
Lemma bind_inv g s a v b k : Inv g s -> In (b, k) (objs g) -> (k = KVar /\ (a = b + 6 \/ a = b)) \/ (exists n, k = KOther n /\ b <= a < b + n) -> Inv g (FD_Bind_OV s a v).
Proof.
  intros I J Q. pose proof I as [I0 _]. pose proof (inv_wf _ _ _ _ _ _ _ I0) as W. pose proof W as [W1 W2 _].
  assert (NA : forall x j i, In (x, j) (objs g) -> (j = KVar /\ (i = 4 \/ i = 8 \/ i = 9)) \/ (j = KInt /\ (i = 4 \/ i = 8)) -> x + i <> a).
  { intros x j i X Z E. destruct (stacked_disj vs VS _ _ _ _ _ _ W1 J X) as [[<- <-]|D].
    - destruct Q as [[-> Q]|(n & -> & Q)]; destruct Z as [[? Z]|[? Z]]; try discriminate; lia.
    - destruct Q as [[-> Q]|(n & -> & Q)]; destruct Z as [[-> Z]|[-> Z]]; cbn [FdTrail_Spec.size] in D; lia. }
  unfold FD_Bind_OV. destruct (FD_Word_Needs_Trailing s a) eqn:N.
  - rewrite <- (gh_eta g). apply (inplace vs VS g s _ [TOV a (m s a)] [] I); [reflexivity|repeat constructor|reflexivity|reflexivity|cbn; lia|easy| | |].
    + cbn [app]. apply (wf_frame vs VS (m s) _ (cs s)); [exact W|cbn; lia| |].
      * intros x j X Z. split; (apply (m_put_other (Trail_OV s a)); apply (NA x j); [exact X|destruct Z as [->| ->]; [left|right]; split; [reflexivity|lia|reflexivity|lia]]).
      * intros x X. apply (m_put_other (Trail_OV s a)). apply (NA x KVar); [exact X|left; split; [reflexivity|lia]].
    + intros d D. right. right. intros c e _ _. right. destruct (Z.eq_dec d a) as [->|Z]; [eexists; split; [now left|reflexivity]|]. elim D. apply (m_put_other (Trail_OV s a)). exact Z.
    + intros c e C A x X. assert (XO : In (x, KVar) (objs g)).
      { destruct (inv_good _ _ _ _ _ _ _ c I0 C) as [_ _ _ (nw0 & E & _) _]. rewrite E. apply in_or_app. now right. }
      split; left; [split|]; (apply (m_put_other (Trail_OV s a)); apply (NA x KVar); [exact XO|left; split; [reflexivity|lia]]).
  - rewrite <- (gh_eta g). apply (inplace vs VS g s _ [] [] I); [reflexivity|constructor|reflexivity|reflexivity|cbn; lia|easy| | |].
    + cbn [app]. apply (wf_frame vs VS (m s) _ (cs s)); [exact W|cbn; lia| |].
      * intros x j X Z. split; (apply m_put_other; apply (NA x j); [exact X|destruct Z as [->| ->]; [left|right]; split; [reflexivity|lia|reflexivity|lia]]).
      * intros x X. apply m_put_other. apply (NA x KVar); [exact X|left; split; [reflexivity|lia]].
    + intros d D. right. right. intros c e C _. left. destruct (Z.eq_dec d a) as [->|Z]; [exact (not_needed vs VS g s a I N c C)|]. elim D. apply m_put_other. exact Z.
    + intros c e C A x X. assert (XO : In (x, KVar) (objs g)).
      { destruct (inv_good _ _ _ _ _ _ _ c I0 C) as [_ _ _ (nw0 & E & _) _]. rewrite E. apply in_or_app. now right. }
      split; left; [split|]; (apply m_put_other; apply (NA x KVar); [exact XO|left; split; [reflexivity|lia]]).
Qed.
Lemma range_inv g s x nb r : Inv g s -> In (x, KVar) (objs g) -> match r_vec r with Some ws => length ws = vs | None => True end ->
  let s' := Update_Range_From_Range vs s x nb r in Inv (if cs s' =? cs s then g else Gh ((cs s, KVec) :: objs g) (snaps g) (nxt g)) s'.
Proof.
  intros I J L s'. assert (H0 : s' = Range_Copy vs (put (Trail_Range_If_Necessary vs s x) (Nb_Elem x) nb) x r \/ s' = s \/ s' = FD_Bind_OV s (Range_w0 x) (r_extra r)).
  { unfold s', Update_Range_From_Range. match goal with |- (if ?b then _ else _) = _ \/ _ => destruct b end; [now left|right]. destruct (low (m s (Range_w0 x)) =? r_extra r); auto. }
  clearbody s'. destruct H0 as [->|[->| ->]].
  - set (s1 := Trail_Range_If_Necessary vs s x). set (s2 := put s1 (Nb_Elem x) nb).
    destruct (range_copy_spec g s s2 x r I J) as (A & B & D); [unfold s2; rewrite cs_put; apply (range_cs g s x I J)|unfold s2; rewrite m_put_other by (ofs; lia); apply (range_vec g s x I J)|exact L|].
    cbv zeta in A, B, D. apply (saved_op' g s (Range_Copy vs s2 x r) x I J); [|rewrite B; unfold s2; apply m_put_other; ofs; lia|exact D].
    apply (only_trans _ _ s2); [apply only_put; left; ofs; lia|exact A].
  - rewrite Z.eqb_refl. exact I.
  - assert (E : cs (FD_Bind_OV s (Range_w0 x) (r_extra r)) = cs s) by (unfold FD_Bind_OV; rewrite cs_put; destruct (FD_Word_Needs_Trailing s (Range_w0 x)); reflexivity).
    rewrite E, Z.eqb_refl. apply (bind_inv g s _ _ x KVar I J). left. split; [reflexivity|]. left. ofs. lia.
Qed.
Lemma sparse_inv g s x nb e mn mx ws : Inv g s -> In (x, KVar) (objs g) -> length ws = vs ->
  let s' := Tell_Not_Value_Sparse vs s x nb e mn mx ws in Inv (if cs s' =? cs s then g else Gh ((cs s, KVec) :: objs g) (snaps g) (nxt g)) s'.
Proof.
  intros I J L. unfold Tell_Not_Value_Sparse. set (s1 := Trail_Range_If_Necessary vs s x). set (s2 := set_Max (put s1 (Range_w0 x) (ints e mn)) x mx). cbv zeta.
  assert (E : forall i, i <> 6 -> i <> 7 -> m s2 (x + i) = m s1 (x + i)) by (intros i N1 N2; unfold s2, set_Max; rewrite !m_put_other by (ofs; lia); reflexivity).
  destruct (vec_fill g s s2 x ws I J) as (A & B & D); [change (cs s2) with (cs s1); apply (range_cs g s x I J)|rewrite E by lia; apply (range_vec g s x I J)|exact L|]. cbv zeta in A, B, D.
  set (s3 := puts (alloc_vec vs s2 x) (m (alloc_vec vs s2 x) (Vec x)) (firstn vs ws)) in *. set (s4 := put s3 (Nb_Elem x) nb).
  assert (D' : (cs s4 = cs s /\ (m s4 (x + 8) = m s (x + 8) \/ m s4 (x + 8) = 0)) \/ (cs s4 = cs s + Z.of_nat vs /\ m s4 (x + 8) = cs s)).
  { unfold s4. rewrite cs_put. rewrite m_put_other by (ofs; lia). destruct D as [[? ?]|D]; [left; auto|now right]. }
  apply (saved_op' g s s4 x I J); [|unfold s4; rewrite m_put_other by (ofs; lia); rewrite B by lia; apply E; lia|exact D'].
  apply (only_trans _ _ s2); [apply (only_trans _ _ (put s1 (Range_w0 x) (ints e mn))); [apply only_put; left; ofs; lia|apply only_Max; left; ofs; lia]|].
  apply (only_trans _ _ s3); [exact A|apply only_put; left; ofs; lia].
Qed.
Lemma remove_inv g s x i w mn mx : Inv g s -> In (x, KVar) (objs g) -> 0 <= i < Z.of_nat vs -> Inv g (Tell_Not_Value_Remove vs s x i w mn mx).
Proof.
  intros I J Hi. unfold Tell_Not_Value_Remove. set (s1 := Trail_Range_If_Necessary vs s x).
  pose proof (range_vec g s x I J) as RV. fold s1 in RV. pose proof (range_cs g s x I J) as RC. fold s1 in RC.
  assert (VE : Vec x = x + 8) by (ofs; lia). rewrite VE.
  set (s2 := if Is_Sparse s1 x then put s1 (m s1 (x + 8) + i) w else s1).
  assert (A : only (rwords vs s x) s1 s2 /\ cs s2 = cs s /\ forall a, 0 <= a - x <= 16 -> m s2 a = m s1 a).
  { unfold s2, Is_Sparse. rewrite VE, RV. destruct (Z.eqb_spec (m s (x + 8)) 0) as [E|E]; cbn [negb]; [split; [apply only_refl|split; [exact RC|reflexivity]]|].
    split; [apply only_put; right; left; split; [exact E|lia]|]. split; [rewrite cs_put; exact RC|]. intros a R. apply m_put_other.
    destruct I as [I _]. destruct (inv_wf _ _ _ _ _ _ _ I) as [W1 W2 _]. destruct (W2 x KVar J (or_introl eq_refl)) as [_ [V0|[V0 _]]]; [contradiction|].
    destruct (stacked_disj vs VS _ _ _ _ _ _ W1 V0 J) as [[? ?]|D]; [discriminate|]. cbn [FdTrail_Spec.size] in D. lia. }
  destruct A as (A1 & A2 & A3). set (s3 := put s2 (Nb_Elem x) (m s2 (Nb_Elem x) - 1)).
  set (s4 := match mn with Some n => set_Min s3 x n | None => s3 end).
  set (s5 := match mx with Some n => set_Max s4 x n | None => s4 end). cbv zeta.
  assert (O3 : only (rwords vs s x) s1 s3) by (apply (only_trans _ _ s2); [exact A1|apply only_put; left; ofs; lia]).
  assert (O4 : only (rwords vs s x) s1 s4) by (unfold s4; destruct mn; [apply (only_trans _ _ s3); [exact O3|apply only_Min; left; ofs; lia]|exact O3]).
  assert (O5 : only (rwords vs s x) s1 s5) by (unfold s5; destruct mx; [apply (only_trans _ _ s4); [exact O4|apply only_Max; left; ofs; lia]|exact O4]).
  assert (E : forall j, j = 4 \/ j = 8 -> m s5 (x + j) = m s1 (x + j)).
  { intros j Hj. assert (m s4 (x + j) = m s1 (x + j)) as E4 by (unfold s4; destruct mn; unfold set_Min; rewrite ?m_put_other by (ofs; lia); unfold s3; rewrite m_put_other by (ofs; lia); apply A3; lia).
    unfold s5. destruct mx; unfold set_Max; rewrite ?m_put_other by (ofs; lia); exact E4. }
  assert (C5 : cs s5 = cs s) by (unfold s5, s4; destruct mn, mx; exact A2).
  rewrite <- (gh_eta g). apply (saved_op g s s5 x [] I J O5); [apply E; now left|]. left. split; [reflexivity|]. split; [exact C5|]. left. rewrite E by (now right). exact RV.
Qed.
Lemma int_inv g s x n : Inv g s -> In (x, KVar) (objs g) -> Inv g (Update_Range_From_Int vs s x n).
Proof.
  intros I J. unfold Update_Range_From_Int. set (s1 := Trail_Fd_Int_Variable_If_Necessary vs s x).
  set (s2 := put s1 (Nb_Elem x) 1). destruct (bounds_only (fun a => 0 <= a - x <= 1 \/ 4 <= a - x <= 8) s2 x n n) as (B1 & B2 & B3); [right; ofs; lia|right; ofs; lia|]. cbv zeta in B1, B2, B3 |- *.
  set (s3 := if Max (if Min s2 x =? n then s2 else set_Min s2 x n) x =? n then if Min s2 x =? n then s2 else set_Min s2 x n else set_Max (if Min s2 x =? n then s2 else set_Min s2 x n) x n) in *.
  set (s4 := put s3 (Vec x) 0). set (s5 := put s4 (FD_Tag_Value x) (Tag_INT_ n)). set (s6 := put s5 (FD_INT_Date x) (date s5)).
  assert (O : only (fun a => 0 <= a - x <= 1 \/ 4 <= a - x <= 8) s1 s6).
  { apply (only_trans _ _ s2); [apply only_put; right; ofs; lia|]. apply (only_trans _ _ s3); [exact B1|]. apply (only_trans _ _ s4); [apply only_put; right; ofs; lia|].
    apply (only_trans _ _ s5); apply only_put; left; ofs; lia. }
  assert (E4 : m s6 (x + 4) = m s1 (x + 4)).
  { unfold s6, s5, s4. rewrite !m_put_other by (ofs; lia). rewrite B3 by (ofs; lia). unfold s2. apply m_put_other. ofs; lia. }
  assert (E8 : m s6 (x + 8) = 0).
  { unfold s6, s5. rewrite !m_put_other by (ofs; lia). unfold s4. ofs. replace (x + 4 + 4) with (x + 8) by lia. apply m_put_same. }
  assert (C6 : cs s6 = cs s1) by (unfold s6, s5, s4; rewrite !cs_put, B2; reflexivity).
  destruct O as (O1 & O2 & _ & O4 & O5). rewrite <- (gh_eta g). unfold s1, Trail_Fd_Int_Variable_If_Necessary in *. ofs. destruct (FD_Word_Needs_Trailing s x) eqn:N.
  - set (s0 := Trail_OV (Trail_OV s x) (x + 1)) in *.
    destruct (save_range vs VS g s x I J) as (ne & T & F & S & K & C & D & M & M4 & SV).
    assert (S0 : exists t, tr (Trail_Range_If_Necessary vs s0 x) = ne ++ t /\ t = [TOV (x + 1) (m s (x + 1)); TOV x (m s x)] ++ tr s /\ m (Trail_Range_If_Necessary vs s0 x) = m (Trail_Range_If_Necessary vs s x) /\
      stamp (Trail_Range_If_Necessary vs s0 x) = stamp s /\ cps (Trail_Range_If_Necessary vs s0 x) = cps s /\ cs (Trail_Range_If_Necessary vs s0 x) = cs s).
    { exists (tr s0). split; [|split; [reflexivity|]].
      - clear -T. unfold Trail_Range_If_Necessary, Is_Sparse in *. change (m s0) with (m s) in *. change (stamp s0) with (stamp s) in *.
        destruct (m s (Range_Stamp x) =? stamp s); [destruct ne as [|en ne]; [reflexivity|apply (f_equal (@length _)) in T; rewrite app_length in T; cbn [length] in T; lia]|].
        change (m (Trail_MV s0 (x + OFFSET_RANGE) RANGE_SIZE)) with (m s). change (m (Trail_MV s (x + OFFSET_RANGE) RANGE_SIZE)) with (m s) in T.
        destruct (negb (m s (Vec x) =? 0)); cbn [put set_m tr Trail_MV push_tr] in *; change (m (Trail_MV s (x + OFFSET_RANGE) RANGE_SIZE)) with (m s) in T; change (m (Trail_MV s0 (x + OFFSET_RANGE) RANGE_SIZE)) with (m s); change (m s0) with (m s);
          [change (?a :: ?b :: tr s) with ([a; b] ++ tr s) in T|change (?a :: tr s) with ([a] ++ tr s) in T]; apply app_inv_tail in T; rewrite <- T; reflexivity.
      - unfold Trail_Range_If_Necessary, Is_Sparse. change (m s0) with (m s). change (stamp s0) with (stamp s). destruct (m s (Range_Stamp x) =? stamp s); [repeat split|].
        change (m (Trail_MV s0 (x + OFFSET_RANGE) RANGE_SIZE)) with (m s). change (m (Trail_MV s (x + OFFSET_RANGE) RANGE_SIZE)) with (m s). destruct (negb (m s (Vec x) =? 0)); repeat split. }
    destruct S0 as (t & T1 & -> & M1 & ST1 & K1 & C1).
    apply (range_op vs VS g s s6 x (ne ++ [TOV (x + 1) (m s (x + 1)); TOV x (m s x)]) [] I J).
    + rewrite O1, T1, <- app_assoc. reflexivity.
    + apply Forall_app. split; [exact F|repeat constructor].
    + rewrite O2. exact ST1.
    + rewrite O4. exact K1.
    + intros c e C0 A. destruct (SV c e C0 A) as [Q|[Q1 Q2]]; [now left|right]. 
      assert (CV : forall a, cov (ne ++ e) a -> cov ((ne ++ [TOV (x + 1) (m s (x + 1)); TOV x (m s x)]) ++ e) a).
      { intros a (en & In' & Cv). exists en. split; [|exact Cv]. apply in_app_iff in In'. apply in_app_iff. rewrite in_app_iff. tauto. }
      split; [intros i Hi; apply CV; auto|intros Z1 Z2 i Hi; apply CV; auto].
    + intros a A. right. intros c e _ _. right. apply cov_app_l, cov_app_r. destruct (Z.eq_dec a x) as [->|]; [eexists; split; [right; now left|reflexivity]|].
      eexists; split; [now left|]. cbn [cov1]. lia.
    + intros a A1 A2. rewrite O5 by (intros [Q|Q]; [lia|apply A2; left; lia]). rewrite M1. apply M. intros ->. apply A2. left. lia.
    + rewrite E4, M1, M4. lia.
    + left. split; [reflexivity|]. split; [rewrite C6; exact C1|now right].
  - apply (range_op vs VS g s s6 x [] [] I J); [rewrite O1; reflexivity|constructor|rewrite O2; reflexivity|rewrite O4; reflexivity| | | | |].
    + intros c e C0 _. left. exact (not_needed vs VS g s x I N c C0).
    + intros a A. right. intros c e C0 _. left. exact (not_needed vs VS g s x I N c C0).
    + intros a A1 A2. apply O5. intros [Q|Q]; [lia|apply A2; left; lia].
    + rewrite E4. destruct I as [I _]. destruct (inv_wf _ _ _ _ _ _ _ I) as [_ W2 _]. apply (W2 x KVar J). now left.
    + left. split; [reflexivity|]. split; [rewrite C6; reflexivity|now right].
Qed.

(** ** Constraints *)
Lemma save_chains g s x : Inv g s -> In (x, KVar) (objs g) -> let s1 := Trail_Chains_If_Necessary s x in
  exists ne, tr s1 = ne ++ tr s /\ Forall (truthful (m s)) ne /\ stamp s1 = stamp s /\ cps s1 = cps s /\ cs s1 = cs s /\
    (forall a, a <> x + 9 -> m s1 a = m s a) /\ m s1 (x + 9) = stamp s /\
    forall c e, In c (snaps g) -> above s c e -> cs (n_s c) <= x \/ forall i, 9 <= i <= 16 -> cov (ne ++ e) (x + i).
Proof.
  intros I J s1. unfold s1, Trail_Chains_If_Necessary, Chains_Stamp, OFFSET_CHAINS. clear s1. destruct (Z.eqb_spec (m s (x + 9)) (stamp s)) as [E|E].
  - exists []. cbn [app]. split; [reflexivity|]. split; [constructor|]. do 3 (split; [reflexivity|]). split; [reflexivity|]. split; [exact E|].
    intros c e C A. destruct (where_obj vs g s c x KVar I C J) as [O|O]; [right|now left]. destruct I as [I _].
    destruct (inv_good _ _ _ _ _ _ _ c I C) as [G1 _ _ _ (e' & T & [_ V] & _)]. assert (e' = e) by (unfold above in A; rewrite A in T; apply app_inv_tail in T; congruence). subst e'.
    apply V; [exact O|]. rewrite E. exact G1.
  - exists [TMV (x + 9) (rds (m s) (x + 9) 8)]. split; [reflexivity|]. split; [repeat constructor|]. do 3 (split; [reflexivity|]).
    split; [intros a N; cbn [put set_m m Trail_MV push_tr]; apply wr_other; exact N|]. split; [cbn [put set_m m]; apply wr_same|].
    intros c e C A. right. intros i Hi. eexists. split; [now left|]. cbn [cov1 rds length]. lia.
Qed.
Lemma novol os top x k i : stacked vs top os -> In (x, k) os -> 0 <= i < size k ->
  (k = KVec \/ (k = KVar /\ i <> 2 /\ i <> 3 /\ i <> 10) \/ (k = KInt /\ i <> 2 /\ i <> 3) \/ exists n, k = KOther n) -> ~ vol os (x + i).
Proof.
  intros St J Hi Q (y & j & K & V). destruct (stacked_disj vs VS _ _ _ _ _ _ St J K) as [[<- <-]|D].
  - destruct Q as [->|[[-> Q]|[[-> Q]|[n ->]]]]; destruct V as [[[?|?] V]|[[? V]|[? V]]]; try discriminate; lia.
  - destruct V as [[[->| ->] V]|[[-> V]|[-> V]]]; cbn [FdTrail_Spec.size] in D; lia.
Qed.
Lemma dep_inv g s x k CF : Inv g s -> In (x, KVar) (objs g) -> 0 <= k <= 4 ->
  let s' := Fd_Add_Dependency s x k CF in Inv (if cs s' =? cs s then g else Gh ((cs s, KOther 2) :: objs g) (snaps g) (nxt g)) s'.
Proof.
  intros I J Hk s'. unfold s', Fd_Add_Dependency. clear s'. destruct (Fd_Variable_Is_Ground s x); [cbv zeta; rewrite Z.eqb_refl; exact I|].
  set (s1 := Trail_Chains_If_Necessary s x). set (s2 := put s1 (Chains_Mask x) (Z.lor (m s1 (Chains_Mask x)) (Z.shiftl 1 k))).
  set (s3 := puts s2 (cs s2) [CF; m s2 (Chain x k)]). set (s4 := put s3 (Chain x k) (cs s3)). set (s5 := set_cs s4 (cs s4 + 2)). cbv zeta.
  destruct (save_chains g s x I J) as (ne & T & F & S & K & C & M & M9 & SV). fold s1 in T, S, K, C, M, M9.
  assert (C5 : cs s5 = cs s + 2) by (change (cs s5) with (cs s1 + 2); lia). rewrite C5. destruct (Z.eqb_spec (cs s + 2) (cs s)); [lia|].
  pose proof I as [I0 _]. pose proof (inv_wf _ _ _ _ _ _ _ I0) as W. pose proof W as [W1 W2 W3]. destruct (stacked_in vs VS _ _ _ _ W1 J) as (X0 & X1 & _). cbn [FdTrail_Spec.size] in X1.
  assert (FR : forall a, ~ 11 <= a - x <= 16 -> a < cs s -> m s5 a = m s1 a).
  { intros a N L. change (m s5 a) with (m s4 a). unfold s4. rewrite m_put_other by (unfold Chain, OFFSET_CHAINS; lia). unfold s3, puts, set_m. cbn [m]. rewrite (wrs_other vs VS) by (left; change (cs s2) with (cs s1); lia).
    unfold s2. apply m_put_other. unfold Chains_Mask, OFFSET_CHAINS; lia. }
  assert (OT : forall y j, In (y, j) (objs g) -> y <> x -> forall i, 0 <= i < size j -> m s5 (y + i) = m s (y + i)).
  { intros y j Y NX i Hi. destruct (stacked_disj vs VS _ _ _ _ _ _ W1 J Y) as [[? _]|D]; [congruence|]. cbn [FdTrail_Spec.size] in D. destruct (stacked_in vs VS _ _ _ _ W1 Y) as (Y0 & Y1 & _).
    rewrite FR by lia. apply M. lia. }
  assert (XI : forall i, 0 <= i <= 8 -> m s5 (x + i) = m s (x + i)) by (intros i Hi; rewrite FR by lia; apply M; lia).
  assert (X9 : m s5 (x + 9) = stamp s) by (rewrite FR by lia; exact M9).
  apply (inplace vs VS g s s5 ne [(cs s, KOther 2)] I); [exact T|exact F|exact S|exact K|lia| | | |].
  - intros a j [Q|[]]. injection Q as <- <-. lia.
  - constructor.
    + cbn [app stacked ok_kind FdTrail_Spec.size]. split; [lia|]. split; [lia|exact W1].
    + intros y j [Y|Y] Q; [injection Y as <- <-; destruct Q; discriminate|]. assert (E : m s5 (y + 4) = m s (y + 4) /\ m s5 (y + 8) = m s (y + 8)).
      { destruct (Z.eq_dec y x) as [->|NX]; [split; apply XI; lia|]. split; (apply (OT y j Y NX); destruct Q as [->| ->]; cbn [FdTrail_Spec.size]; lia). }
      destruct E as [-> ->]. destruct (W2 y j Y Q) as [A B]. split; [exact A|]. destruct B as [B|[B B']]; [now left|]. right. split; [now right|exact B'].
    + intros y [Y|Y]; [discriminate|]. destruct (Z.eq_dec y x) as [->|NX]; [rewrite X9; lia|]. rewrite (OT y KVar Y NX) by (cbn [FdTrail_Spec.size]; lia). auto.
  - intros a N. destruct (Z_le_gt_dec (cs s) a) as [|LT]; [now left|]. right. right. intros c e D A. destruct (SV c e D A) as [Q|Q].
    + left. destruct (Z_le_gt_dec 9 (a - x)) as [G|G]; [lia|]. exfalso. apply N. rewrite FR by lia. apply M. lia.
    + right. destruct (Z_le_dec 9 (a - x)); [destruct (Z_le_dec (a - x) 16)|]; [replace a with (x + (a - x)) by lia; apply Q; lia|exfalso; apply N; rewrite FR by lia; apply M; lia..].
  - intros c e D A y Y. assert (YO : In (y, KVar) (objs g)).
    { destruct (inv_good _ _ _ _ _ _ _ c I0 D) as [_ _ _ (nw0 & E & _) _]. rewrite E. apply in_or_app. now right. }
    destruct (Z.eq_dec y x) as [->|NX].
    + split; [left; split; apply XI; lia|right]. destruct (SV c e D A) as [Q|Q]; [|exact Q]. exfalso.
      destruct (inv_good _ _ _ _ _ _ _ c I0 D) as [_ _ G3 _ _]. destruct (stacked_in vs VS _ _ _ _ G3 Y) as (_ & Q' & _). cbn [FdTrail_Spec.size] in Q'. lia.
    + split; left; [split|]; apply (OT y KVar YO NX); cbn [FdTrail_Spec.size]; lia.
Qed.

(** ** New objects and volatile words *)
Lemma vol_dec os a : vol os a \/ ~ vol os a.
Proof.
  induction os as [|[x k] os IH]; [right; intros (y & j & J & _); exact J|]. destruct IH as [(y & j & J & V)|N]; [left; exists y, j; split; [now right|exact V]|].
  set (P := ((k = KVar \/ k = KInt) /\ (a = x + 2 \/ a = x + 3)) \/ (k = KVar /\ a = x + 10) \/ (k = KSlot /\ a = x)).
  assert (D : P \/ ~ P).
  { unfold P. destruct (Z.eq_dec a (x + 2)), (Z.eq_dec a (x + 3)), (Z.eq_dec a (x + 10)), (Z.eq_dec a x); destruct k; try tauto; right; intros [[[?|?] [?|?]]|[[? ?]|[? ?]]]; try discriminate; tauto. }
  destruct D as [D|D]; [left; exists x, k; split; [now left|exact D]|]. right. intros (y & j & [J|J] & V); [injection J as <- <-; exact (D V)|]. apply N. exists y, j. auto.
Qed.
Lemma fresh_inv g s s' nw : Inv g s -> tr s' = tr s -> stamp s' = stamp s -> cps s' = cps s -> cs s <= cs s' ->
  (forall a, a < cs s -> ~ vol (objs g) a -> m s' a = m s a) -> (forall a k, In (a, k) nw -> cs s <= a) -> stacked vs (cs s') (nw ++ objs g) ->
  (forall x k, In (x, k) nw -> k = KVar \/ k = KInt -> m s' (x + 4) <= stamp s /\ (m s' (x + 8) = 0 \/ (In (m s' (x + 8), KVec) (nw ++ objs g) /\ x < m s' (x + 8)))) ->
  (forall x, In (x, KVar) nw -> m s' (x + 9) <= stamp s) -> Inv (Gh (nw ++ objs g) (snaps g) (nxt g)) s'.
Proof.
  intros I T S K C E N St A B. pose proof I as [I0 _]. pose proof (inv_wf _ _ _ _ _ _ _ I0) as W. pose proof W as [W1 W2 W3].
  assert (NV : forall x k i, In (x, k) (objs g) -> (k = KVar /\ (4 <= i <= 9)) \/ (k = KInt /\ 4 <= i <= 8) -> m s' (x + i) = m s (x + i)).
  { intros x k i J Q. destruct (stacked_in vs VS _ _ _ _ W1 J) as (X0 & X1 & _). apply E.
    - destruct Q as [[-> Q]|[-> Q]]; cbn [FdTrail_Spec.size] in X1; lia.
    - apply (novol _ _ x k i W1 J); [destruct Q as [[-> Q]|[-> Q]]; cbn [FdTrail_Spec.size]; lia|]. right. destruct Q as [[-> Q]|[-> Q]]; [left|right; left]; split; try reflexivity; lia. }
  apply (inplace vs VS g s s' [] nw I); [exact T|constructor|exact S|exact K|exact C|exact N| | |].
  - constructor; [exact St| |].
    + intros x k X Q. apply in_app_iff in X. destruct X as [X|X]; [apply (A x k X Q)|].
      rewrite !(NV x k) by (exact X || (destruct Q as [->| ->]; [left|right]; split; [reflexivity|lia|reflexivity|lia])). destruct (W2 x k X Q) as [R1 R2]. split; [exact R1|]. destruct R2 as [R2|[R2 R3]]; [now left|]. right. split; [apply in_or_app; now right|exact R3].
    + intros x X. apply in_app_iff in X. destruct X as [X|X]; [apply (B x X)|]. rewrite (NV x KVar) by (exact X || (left; split; [reflexivity|lia])). auto.
  - intros a Q. destruct (Z_le_gt_dec (cs s) a) as [|LT]; [now left|]. right. left.
    destruct (vol_dec (objs g) a) as [V|V]; [exact V|]. elim Q. apply E; [lia|exact V].
  - intros c e D A' x X. assert (XO : In (x, KVar) (objs g)).
    { destruct (inv_good _ _ _ _ _ _ _ c I0 D) as [_ _ _ (nw0 & Q & _) _]. rewrite Q. apply in_or_app. now right. }
    split; left; [split|]; apply (NV x KVar); try exact XO; left; split; try reflexivity; lia.
Qed.
Lemma vol_inv g s a v : Inv g s -> vol (objs g) a \/ cs s <= a -> Inv g (put s a v).
Proof.
  intros I V. rewrite <- (gh_eta g). apply (fresh_inv g s (put s a v) [] I eq_refl eq_refl eq_refl); [rewrite cs_put; lia| |easy|cbn [app]; rewrite cs_put; destruct I as [I _]; exact (wf_st _ _ _ _ _ (inv_wf _ _ _ _ _ _ _ I))|easy|easy].
  intros b B N. apply m_put_other. intros ->. destruct V as [V|V]; [exact (N V)|lia].
Qed.
Lemma queue_inv g s x a b : Inv g s -> In (x, KVar) (objs g) \/ In (x, KInt) (objs g) -> Inv g (put (put s (Queue_Propag_Mask x) a) (Queue_Next x) b).
Proof.
  intros I J. assert (V : forall i, i = 2 \/ i = 3 -> vol (objs g) (x + i)).
  { intros i Hi. destruct J as [J|J]; [exists x, KVar|exists x, KInt]; (split; [exact J|left; split; [auto|lia]]). }
  apply vol_inv; [apply vol_inv; [exact I|]|]; left; apply V; lia.
Qed.
Lemma stk g s : Inv g s -> stacked vs (cs s) (objs g). Proof. intros [I _]. exact (wf_st _ _ _ _ _ (inv_wf _ _ _ _ _ _ _ I)). Qed.
Lemma alloc_inv g s ws k : Inv g s -> (k = KOther (Z.of_nat (length ws)) \/ (k = KSlot /\ length ws = 1%nat)) -> Inv (Gh ((cs s, k) :: objs g) (snaps g) (nxt g)) (Alloc s ws).
Proof.
  intros I Q. apply (fresh_inv g s (Alloc s ws) [(cs s, k)] I); try reflexivity.
  - unfold Alloc. cbn [set_cs cs]. lia.
  - intros a A _. unfold Alloc, puts, set_m. cbn [set_cs m]. apply (wrs_other vs VS). lia.
  - intros a j [E|[]]. injection E as <- <-. lia.
  - cbn [app stacked Alloc set_cs cs]. split; [destruct Q as [->|[-> _]]; cbn [ok_kind]; [lia|exact Logic.I]|]. split; [destruct Q as [->|[-> E]]; cbn [FdTrail_Spec.size]; lia|exact (stk g s I)].
  - intros x j [E|[]] V. injection E as <- <-. destruct Q as [->|[-> _]]; destruct V; discriminate.
  - intros x [E|[]]. injection E as _ E. destruct Q as [->|[-> _]]; discriminate.
Qed.
Lemma new_words s mn mx : let s' := Fd_New_Variable_Interval s mn mx in
  cs s' = cs s + 17 /\ tr s' = tr s /\ stamp s' = stamp s /\ cps s' = cps s /\ (forall a, a < cs s -> m s' a = m s a) /\ m s' (cs s + 4) = stamp s /\ m s' (cs s + 8) = 0 /\ m s' (cs s + 9) = stamp s.
Proof.
  unfold Fd_New_Variable_Interval. cbv zeta. cbn [set_cs cs tr stamp cps puts set_m m]. repeat (split; [reflexivity|]).
  split; [intros a A; apply (wrs_other vs VS); lia|]. repeat split; rewrite (wrs_nth vs VS) by (cbn [length]; lia); reflexivity.
Qed.
Lemma new_interval_inv g s mn mx : Inv g s -> Inv (Gh ((cs s, KVar) :: objs g) (snaps g) (nxt g)) (Fd_New_Variable_Interval s mn mx).
Proof.
  intros I. destruct (new_words s mn mx) as (C & T & S & K & M & M4 & M8 & M9). apply (fresh_inv g s _ [(cs s, KVar)] I T S K); [lia|auto| | | |].
  - intros a j [E|[]]. injection E as <- <-. lia.
  - cbn [app stacked ok_kind FdTrail_Spec.size]. split; [exact Logic.I|]. split; [lia|exact (stk g s I)].
  - intros x j [E|[]] _. injection E as <- <-. split; [lia|now left].
  - intros x [E|[]]. injection E as <-. lia.
Qed.
Lemma new_int_inv g s n : Inv g s -> Inv (Gh ((cs s, KInt) :: objs g) (snaps g) (nxt g)) (Fd_New_Int_Variable s n).
Proof.
  intros I. apply (fresh_inv g s (Fd_New_Int_Variable s n) [(cs s, KInt)] I); try reflexivity.
  - unfold Fd_New_Int_Variable, FD_INT_VARIABLE_FRAME_SIZE. cbn [set_cs cs]. lia.
  - intros a A _. unfold Fd_New_Int_Variable. cbn [set_cs puts set_m m]. apply (wrs_other vs VS). lia.
  - intros a j [E|[]]. injection E as <- <-. lia.
  - cbn [app stacked ok_kind FdTrail_Spec.size Fd_New_Int_Variable set_cs cs]. unfold FD_INT_VARIABLE_FRAME_SIZE. split; [exact Logic.I|]. split; [lia|exact (stk g s I)].
  - intros x j [E|[]] _. injection E as <- <-. unfold Fd_New_Int_Variable. cbn [set_cs puts set_m m]. rewrite !(wrs_nth vs VS) by (cbn [length]; lia). split; [apply Z.le_refl|left; reflexivity].
  - intros x [E|[]]. discriminate.
Qed.
Lemma new_range_inv g s imax nb r : Inv g s -> match r_vec r with Some ws => length ws = vs | None => True end ->
  Inv (Gh (match r_vec r with Some _ => (cs s + 17, KVec) :: (cs s, KVar) :: objs g | None => (cs s, KVar) :: objs g end) (snaps g) (nxt g)) (Fd_New_Variable_Range vs s imax nb r).
Proof.
  intros I L. destruct (new_words s 0 imax) as (C & T & S & K & M & M4 & M8 & M9). pose proof (new_interval_inv g s 0 imax I) as I1.
  unfold Fd_New_Variable_Range. set (s1 := Fd_New_Variable_Interval s 0 imax) in *. set (x := cs s) in *. set (g1 := Gh ((x, KVar) :: objs g) (snaps g) (nxt g)) in *. cbv zeta.
  destruct (range_copy_spec g1 s1 s1 x r I1) as ((O1 & O2 & _ & O4 & O5) & B & D); [now left|reflexivity|reflexivity|exact L|]. cbv zeta in *. set (s2 := Range_Copy vs s1 x r) in *.
  assert (V : match r_vec r with Some _ => cs s2 = x + 17 + Z.of_nat vs /\ m s2 (x + 8) = x + 17 | None => cs s2 = x + 17 /\ m s2 (x + 8) = 0 end).
  { unfold s2, Range_Copy. assert (E8 : m (set_Max (put s1 (Range_w0 x) (ints (r_extra r) (r_min r))) x (r_max r)) (x + 8) = 0) by (unfold set_Max; rewrite !m_put_other by (ofs; lia); exact M8).
    assert (EV : Vec x = x + 8) by (ofs; lia). destruct (r_vec r) as [ws|].
    - unfold alloc_vec, Is_Sparse. rewrite EV, E8. cbn [Z.eqb negb]. set (s3 := set_Max (put s1 (Range_w0 x) (ints (r_extra r) (r_min r))) x (r_max r)) in *.
      rewrite cs_puts. cbn [set_cs cs]. change (cs s3) with (cs s1). change (m (set_cs (put s3 (x + 8) (cs s1)) (cs s1 + Z.of_nat vs))) with (m (put s3 (x + 8) (cs s1))). rewrite m_put_same.
      split; [lia|]. unfold puts, set_m. cbn [m set_cs]. rewrite (wrs_other vs VS) by lia. change (wr (m s3) (x + 8) (cs s3)) with (m (put s3 (x + 8) (cs s1))). rewrite m_put_same. exact C.
    - rewrite cs_put, EV. split; [exact C|]. apply m_put_same. }
  assert (FR : forall a, a < x -> m s2 a = m s a).
  { intros a A. rewrite O5; [apply M; exact A|]. intros [Q|[[Q _]|Q]]; lia. }
  assert (E9 : m s2 (x + 9) = stamp s).
  { rewrite O5; [exact M9|]. intros [Q|[[Q _]|Q]]; lia. }
  set (s3 := put s2 (Nb_Elem x) nb).
  assert (E3 : forall i, i <> 5 -> m s3 (x + i) = m s2 (x + i)) by (intros i N; apply m_put_other; ofs; lia).
  destruct (r_vec r) as [ws|]; destruct V as [V1 V2].
  - apply (fresh_inv g s s3 [(x + 17, KVec); (x, KVar)] I); [change (tr s3) with (tr s2); congruence|change (stamp s3) with (stamp s2); congruence|change (cps s3) with (cps s2); congruence|change (cs s3) with (cs s2); fold x; lia| | | | |].
    + intros a A _. unfold s3. rewrite m_put_other by (ofs; fold x in A; lia). apply FR. exact A.
    + intros a j [E|[E|[]]]; injection E as <- <-; fold x; lia.
    + change (cs s3) with (cs s2). cbn [app stacked ok_kind FdTrail_Spec.size]. split; [exact Logic.I|]. split; [lia|]. split; [exact Logic.I|]. split; [lia|exact (stk g s I)].
    + intros y j [E|[E|[]]] Q; injection E as <- <-; [destruct Q; discriminate|]. rewrite !E3 by lia. split; [rewrite B; lia|]. right. rewrite V2. split; [now left|lia].
    + intros y [E|[E|[]]]; [discriminate|]. injection E as <-. rewrite E3 by lia. lia.
  - apply (fresh_inv g s s3 [(x, KVar)] I); [change (tr s3) with (tr s2); congruence|change (stamp s3) with (stamp s2); congruence|change (cps s3) with (cps s2); congruence|change (cs s3) with (cs s2); fold x; lia| | | | |].
    + intros a A _. unfold s3. rewrite m_put_other by (ofs; fold x in A; lia). apply FR. exact A.
    + intros a j [E|[]]; injection E as <- <-; fold x; lia.
    + change (cs s3) with (cs s2). cbn [app stacked ok_kind FdTrail_Spec.size]. split; [exact Logic.I|]. split; [lia|exact (stk g s I)].
    + intros y j [E|[]] Q; injection E as <- <-. rewrite !E3 by lia. split; [rewrite B; lia|]. left. exact V2.
    + intros y [E|[]]. injection E as <-. rewrite E3 by lia. lia.
Qed.
Lemma cframe_inv g s f AF o fdv : Inv g s ->
  match fdv with Some x => In (x, KVar) (objs g) \/ (In (x, KInt) (objs g) /\ Fd_Variable_Is_Ground s x = true /\ x + 9 <= cs s) | None => True end ->
  Inv (Gh ((cs s, KOther 3) :: objs g) (snaps g) (nxt g)) (Fd_Create_C_Frame s f AF o fdv).
Proof.
  intros I L. set (s' := Fd_Create_C_Frame s f AF o fdv).
  assert (A : tr s' = tr s /\ stamp s' = stamp s /\ cps s' = cps s /\ cs s' = cs s + 3 /\ forall a, a < cs s -> ~ vol (objs g) a -> m s' a = m s a).
  { unfold s', Fd_Create_C_Frame. set (s1 := puts s (cs s) [AF; o; f]).
    assert (B : forall a, a < cs s -> m s1 a = m s a) by (intros a A; unfold s1, puts, set_m; cbn [m]; apply (wrs_other vs VS); lia).
    destruct fdv as [x|]; [|repeat split; intros a A _; apply B, A]. destruct L as [L|(L1 & L2 & L3)].
    - destruct (Fd_Variable_Is_Ground s1 x); [repeat split; intros a A _; apply B, A|]. repeat split. intros a A N. cbn [set_cs m]. rewrite m_put_other; [apply B, A|].
      intros ->. apply N. exists x, KVar. split; [exact L|]. right. left. unfold Nb_Cstr, OFFSET_CHAINS. split; [reflexivity|lia].
    - replace (Fd_Variable_Is_Ground s1 x) with true; [repeat split; intros a A _; apply B, A|]. rewrite <- L2. unfold Fd_Variable_Is_Ground. rewrite B; [reflexivity|lia]. }
  destruct A as (T & S & K & C & M). apply (fresh_inv g s s' [(cs s, KOther 3)] I T S K); [lia|exact M| | | |].
  - intros a j [E|[]]. injection E as <- <-. lia.
  - cbn [app stacked ok_kind FdTrail_Spec.size]. split; [lia|]. split; [lia|exact (stk g s I)].
  - intros x j [E|[]] Q. injection E as <- <-. destruct Q; discriminate.
  - intros x [E|[]]. discriminate.
Qed.

(** ** Choice points *)
Lemma create_inv c l : inv vs (m (n_s c)) (tr (n_s c)) (cs (n_s c)) (stamp (n_s c)) (n_objs c) l ->
  inv vs (m (n_s c)) (tr (n_s c)) (cs (n_s c)) (stamp (n_s c) + 1) (n_objs c) (c :: l).
Proof.
  intros I. pose proof (inv_ext vs VS _ (m (n_s c)) _ _ _ (stamp (n_s c) + 1) _ _ I (fun _ _ _ => eq_refl) ltac:(lia)) as I1.
  apply inv_intro; [exact (inv_wf _ _ _ _ _ _ _ I1)| |exact I]. intros d [<-|D]; [|exact (inv_good _ _ _ _ _ _ _ d I1 D)].
  pose proof (inv_wf _ _ _ _ _ _ _ I) as [W1 W2 W3]. constructor; [lia|lia|exact W1|exists []; split; [reflexivity|easy]|].
  exists []. split; [reflexivity|]. split; [|reflexivity]. constructor.
  - intros x X Q. destruct (W2 x KVar X (or_introl eq_refl)). lia.
  - intros x X Q. pose proof (W3 x X). lia.
Qed.
Lemma update_spec g s s' : Inv g s -> Update_Choice_Point s = Ret s' ->
  exists c l, snaps g = c :: l /\ tr s' = tr (n_s c) /\ cs s' = cs (n_s c) /\ stamp s' = stamp s /\ cps s' = cps s /\
    stamp (n_s c) + 1 <= stamp s /\ forall a, a < cs (n_s c) -> ~ vol (n_objs c) a -> m s' a = m (n_s c) a.
Proof.
  intros [I C] E. unfold Update_Choice_Point in E. destruct (snaps g) as [|c l] eqn:Q; rewrite C in E; cbn [map] in E; [discriminate|]. exists c, l.
  destruct (inv_good _ _ _ _ _ _ _ c I (or_introl eq_refl)) as [G1 _ _ _ (e & T & _ & U)]. cbn [c_tr c_cs] in E.
  replace (length (tr s) - length (tr (n_s c)))%nat with (length e) in E by (rewrite T, app_length; lia). rewrite T, Untrail_spec in E. injection E as <-.
  split; [reflexivity|]. cbn [tr cs stamp cps m]. do 5 (split; [first [reflexivity|symmetry; exact C|exact G1]|]). exact U.
Qed.
Lemma update_inv g s s' c l : Inv g s -> snaps g = c :: l -> Update_Choice_Point s = Ret s' -> Inv (Gh (n_objs c) (c :: l) (nxt g)) s'.
Proof.
  intros I Q E. destruct (update_spec g s s' I E) as (c' & l' & Q' & T & C & S & K & G & M). rewrite Q in Q'. injection Q' as <- <-.
  destruct I as [I CP]. split; [|cbn [snaps]; rewrite K, CP, Q; reflexivity]. cbn [objs snaps]. rewrite T, C, S. rewrite Q in I.
  apply (inv_ext vs VS (m (n_s c)) _ _ _ (stamp (n_s c) + 1)); [apply create_inv; exact (inv_nest _ _ _ _ _ _ _ I)|exact M|exact G].
Qed.
Lemma delete_inv g s s' c l : Inv g s -> snaps g = c :: l -> Delete_Choice_Point s = Ret s' -> Inv (Gh (n_objs c) l (nxt g)) s'.
Proof.
  intros I Q E. unfold Delete_Choice_Point in E. destruct (Update_Choice_Point s) as [s1| |] eqn:U; cbn [bind] in E; try discriminate. injection E as <-.
  destruct (update_spec g s s1 I U) as (c' & l' & Q' & T & C & S & K & G & M). rewrite Q in Q'. injection Q' as <- <-.
  destruct I as [I CP]. split; [|cbn [snaps cps]; rewrite K, CP, Q; reflexivity]. cbn [objs snaps m tr cs stamp]. rewrite T, C, S. rewrite Q in I.
  apply (inv_ext vs VS (m (n_s c)) _ _ _ (stamp (n_s c))); [exact (inv_nest _ _ _ _ _ _ _ I)|exact M|lia].
Qed.
Lemma map_skipn {A B} (f : A -> B) n : forall l, skipn n (map f l) = map f (skipn n l). Proof. induction n; intros [|a l]; cbn [skipn map]; auto. Qed.
Lemma map_firstn {A B} (f : A -> B) n : forall l, firstn n (map f l) = map f (firstn n l). Proof. induction n; intros [|a l]; cbn [firstn map]; f_equal; auto. Qed.

Theorem step_inv g s o s' : Inv g s -> legal vs g s o -> exec vs o s = Ret s' -> Inv (gupd g s o s') s'.
Proof.
  intros I L E. destruct o; cbn [legal exec gupd] in *; try (injection E as <-).
  - apply int_inv; assumption.
  - apply interval_inv; assumption.
  - destruct L. apply range_inv; assumption.
  - destruct L. apply sparse_inv; assumption.
  - destruct L. apply remove_inv; assumption.
  - apply new_interval_inv; assumption.
  - apply new_range_inv; assumption.
  - apply new_int_inv; assumption.
  - apply alloc_inv; auto.
  - apply alloc_inv; auto.
  - destruct L as [(b & n & J & B) L]. assert (F : FD_Word_Needs_Trailing s a = false) by (unfold FD_Word_Needs_Trailing; destruct (cps s); [reflexivity|apply Z.ltb_ge; exact L]).
    replace (put s a v) with (FD_Bind_OV s a v) by (unfold FD_Bind_OV; rewrite F; reflexivity). apply (bind_inv g s a v b (KOther n) I J). right. exists n. auto.
  - apply vol_inv; auto.
  - apply vol_inv; [exact I|]. left. exists a, KSlot. auto.
  - apply cframe_inv; assumption.
  - destruct L as [[J K]|G]; [apply dep_inv; assumption|]. unfold Fd_Add_Dependency. rewrite G, Z.eqb_refl. exact I.
  - apply (bind_inv g s _ v CF (KOther 3) I L). right. exists 3. split; [reflexivity|lia].
  - apply queue_inv; assumption.
  - exact I.
  - destruct I as [I C]. split; [|cbn [Create_Choice_Point cps snaps map n_s]; rewrite C; reflexivity]. cbn [objs snaps Create_Choice_Point m tr cs stamp]. apply (create_inv (Snap (nxt g) s (objs g)) (snaps g) I).
  - destruct (update_spec g s s' I E) as (c & l & Q & _). rewrite Q. apply (update_inv g s s' c l I Q E).
  - destruct (snaps g) as [|c l] eqn:Q; [exfalso; destruct I as [_ C]; rewrite Q in C; apply L; exact C|]. apply (delete_inv g s s' c l I Q E).
  - destruct I as [I C]. split; [|cbn [Cut cps snaps]; rewrite C; apply map_skipn]. cbn [objs snaps Cut m tr cs stamp]. apply inv_skipn. exact I.
  - destruct I as [I C]. split; [|cbn [Soft_Cut cps snaps]; rewrite C, map_app, map_skipn, map_firstn; reflexivity]. cbn [objs snaps Soft_Cut m tr cs stamp]. apply inv_soft. exact I.
Qed.
Lemma start_inv g s : start g s -> Inv g s.
Proof.
  intros (P & T & C & ->). split; [|exact C]. cbn [objs snaps]. apply inv_intro; [|easy|exact Logic.I]. constructor; [exact P|easy|easy].
Qed.
Lemma steps_inv gs gs' : steps vs gs gs' -> Inv (fst gs) (snd gs) -> Inv (fst gs') (snd gs').
Proof. induction 1 as [|gs g s o s' _ IH L E]; [auto|]. intros I. cbn [fst snd] in *. apply (step_inv g s o s'); auto. Qed.
Theorem reach_inv g s : reach vs g s -> Inv g s.
Proof. intros (g0 & s0 & St & R). apply (steps_inv _ _ R). cbn [fst snd]. apply start_inv, St. Qed.

(** ** A choice point keeps its copy *)
Lemma steps_snaps gs gs' : steps vs gs gs' -> (nxt (fst gs) <= nxt (fst gs'))%nat /\ forall c, In c (snaps (fst gs')) -> In c (snaps (fst gs)) \/ (nxt (fst gs) <= n_id c)%nat.
Proof.
  induction 1 as [gs|gs g s o s' _ [IH1 IH2] L E]; [split; auto|]. cbn [fst snd] in *.
  assert (Q : (nxt g <= nxt (gupd g s o s'))%nat /\ forall c, In c (snaps (gupd g s o s')) -> In c (snaps g) \/ n_id c = nxt g).
  { destruct o; cbn [gupd]; repeat match goal with |- context [if ?b then _ else _] => destruct b end; cbn [nxt snaps]; try (split; [lia|auto]).
    - intros c [<-|C]; cbn [n_id]; auto.
    - destruct (snaps g) eqn:E0; cbn [nxt snaps]; [rewrite E0|]; split; auto.
    - destruct (snaps g) eqn:E0; cbn [nxt snaps]; [rewrite E0; split; auto|]. split; [lia|]. intros c C. left. now right.
    - intros c C. left. rewrite <- (firstn_skipn n (snaps g)). apply in_or_app. now right.
    - intros c C. left. apply in_app_iff in C. destruct C as [C|C]; [rewrite <- (firstn_skipn n (snaps g))|rewrite <- (firstn_skipn (S n) (snaps g))]; apply in_or_app; auto. }
  destruct Q as [Q1 Q2]. split; [lia|]. intros c C. destruct (Q2 c C) as [C'|C']; [auto|right; lia].
Qed.
Lemma ids g s : reach vs g s -> forall c, In c (snaps g) -> (n_id c < nxt g)%nat.
Proof.
  intros (g0 & s0 & (_ & _ & _ & ->) & R). remember (Gh [] [] 0, s0) as gs eqn:E0. remember (g, s) as gs' eqn:E1. revert g s E1. induction R as [gs|gs g s o s' R IH L E]; intros g' s'' E1; subst.
  - injection E1 as <- <-. easy.
  - injection E1 as <- <-. specialize (IH eq_refl g s eq_refl). intros c C.
    assert (Q : (nxt g <= nxt (gupd g s o s'))%nat) by (apply (steps_snaps (g, s) (gupd g s o s', s')); apply (steps_step vs (g, s) g s o s'); [constructor|exact L|exact E]).
    destruct o; cbn [gupd] in *; repeat match goal with H : context [if ?b then _ else _] |- _ => destruct b end; cbn [nxt snaps] in *; try (apply IH; exact C).
    + destruct C as [<-|C]; cbn [n_id]; [lia|]. pose proof (IH c C). lia.
    + destruct (snaps g) eqn:Q0; cbn [nxt snaps] in *; apply IH; [rewrite Q0 in C; exact C|exact C].
    + destruct (snaps g) eqn:Q0; cbn [nxt snaps] in *; apply IH; [rewrite Q0 in C; exact C|now right].
    + apply IH. rewrite <- (firstn_skipn n (snaps g)). apply in_or_app. now right.
    + apply IH. apply in_app_iff in C. destruct C as [C|C]; [rewrite <- (firstn_skipn n (snaps g))|rewrite <- (firstn_skipn (S n) (snaps g))]; apply in_or_app; auto.
Qed.
End P.
