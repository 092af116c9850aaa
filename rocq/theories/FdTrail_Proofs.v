(** The invariant of the constraint stack: every choice point finds its state again. *)
Require Import ZArith List Bool Lia.
Require Import Verif.Word_Model Verif.Heap_Model Verif.FdTrail_Model Verif.FdTrail_Spec.
Import ListNotations.
Open Scope Z_scope.

Section P.
Variable vs : nat.
Hypothesis VS : (0 < vs)%nat.
Notation size := (size vs).

Lemma wr_same mm a v : wr mm a v a = v. Proof. unfold wr. now rewrite Z.eqb_refl. Qed.
Lemma wr_other mm a v b : b <> a -> wr mm a v b = mm b. Proof. unfold wr. destruct (Z.eqb_spec b a); congruence. Qed.
Lemma wrs_other l : forall mm a b, b < a \/ a + Z.of_nat (length l) <= b -> wrs mm a l b = mm b.
Proof. induction l as [|v l IH]; intros mm a b D; cbn [wrs length] in *; [reflexivity|]. rewrite IH by lia. apply wr_other. lia. Qed.
Lemma wrs_in l : forall m1 m2 a b, a <= b < a + Z.of_nat (length l) -> wrs m1 a l b = wrs m2 a l b.
Proof.
  induction l as [|v l IH]; intros m1 m2 a b D; cbn [wrs length] in *; [lia|]. destruct (Z.eq_dec b a) as [->|N]; [|apply IH; lia].
  rewrite !wrs_other by lia. now rewrite !wr_same.
Qed.
Lemma rds_length mm n : forall a, length (rds mm a n) = n. Proof. induction n; intros a; cbn [rds length]; auto. Qed.
Lemma rds_ext m1 m2 n : forall a, (forall i, 0 <= i < Z.of_nat n -> m1 (a + i) = m2 (a + i)) -> rds m1 a n = rds m2 a n.
Proof.
  induction n as [|n IH]; intros a E; cbn [rds]; [reflexivity|]. f_equal; [rewrite <- (Z.add_0_r a); apply E; lia|].
  apply IH. intros i I. rewrite <- Z.add_assoc. apply E. lia.
Qed.
Lemma wrs_rds n : forall mm a b, wrs mm a (rds mm a n) b = mm b.
Proof.
  induction n as [|n IH]; intros mm a b; cbn [rds wrs]; [reflexivity|].
  assert (E : rds mm (a + 1) n = rds (wr mm a (mm a)) (a + 1) n) by (apply rds_ext; intros i I; rewrite wr_other by lia; reflexivity).
  rewrite E, IH. unfold wr. destruct (Z.eqb_spec b a) as [->|]; reflexivity.
Qed.

(** ** Undoing *)
Definition cov1 (e : entry) (a : Z) : Prop := match e with TOV b _ => a = b | TMV b l => b <= a < b + Z.of_nat (length l) end.
Definition cov (es : list entry) (a : Z) : Prop := exists e, In e es /\ cov1 e a.
Fixpoint undo (es : list entry) (mm : wmem) : wmem := match es with [] => mm | e :: es => undo es (undo1 e mm) end.
Definition truthful (mm : wmem) (e : entry) : Prop := match e with TOV a v => v = mm a | TMV a l => l = rds mm a (length l) end.
Lemma Untrail_spec e : forall t mm, Untrail (length e) (e ++ t) mm = (t, undo e mm).
Proof. induction e as [|x e IH]; intros t mm; cbn [length app Untrail undo]; [destruct t; reflexivity|apply IH]. Qed.
Lemma undo1_at e m1 m2 a : m1 a = m2 a \/ cov1 e a -> undo1 e m1 a = undo1 e m2 a.
Proof.
  destruct e as [b v|b l]; cbn [undo1 cov1]; intros D.
  - unfold wr. destruct (Z.eqb_spec a b); [reflexivity|]. destruct D; congruence.
  - destruct (Z_lt_dec a b) as [Q|Q]; [rewrite !wrs_other by lia; destruct D; [assumption|lia]|].
    destruct (Z_lt_dec a (b + Z.of_nat (length l))) as [R|R]; [apply wrs_in; lia|]. rewrite !wrs_other by lia. destruct D; [assumption|lia].
Qed.
Lemma undo_at es : forall m1 m2 a, m1 a = m2 a \/ cov es a -> undo es m1 a = undo es m2 a.
Proof.
  induction es as [|e es IH]; intros m1 m2 a D; cbn [undo]; [destruct D as [|(? & [] & _)]; assumption|].
  apply IH. destruct D as [D|(e' & [<-|I] & C)]; [left; apply undo1_at; auto|left; apply undo1_at; auto|right; exists e'; auto].
Qed.
Lemma undo_truthful es : forall mm, Forall (truthful mm) es -> forall a, undo es mm a = mm a.
Proof.
  induction es as [|e es IH]; intros mm F a; cbn [undo]; [reflexivity|]. inversion F as [|? ? T F']; subst.
  assert (E : forall b, undo1 e mm b = mm b).
  { intros b. destruct e as [c v|c l]; cbn [undo1 truthful] in *.
    - unfold wr. destruct (Z.eqb_spec b c) as [->|]; congruence.
    - rewrite T. apply wrs_rds. }
  transitivity (undo es mm a); [apply undo_at; left; apply E|apply IH; exact F'].
Qed.
Lemma undo_app e1 : forall e2 mm, undo (e1 ++ e2) mm = undo e2 (undo e1 mm). Proof. induction e1; intros; cbn [app undo]; auto. Qed.
Lemma cov_app_l e1 e2 a : cov e1 a -> cov (e1 ++ e2) a. Proof. intros (e & I & C). exists e. split; [apply in_or_app; auto|exact C]. Qed.
Lemma cov_app_r e1 e2 a : cov e2 a -> cov (e1 ++ e2) a. Proof. intros (e & I & C). exists e. split; [apply in_or_app; auto|exact C]. Qed.

(** ** Objects *)
Definition ok_kind (k : kind) : Prop := match k with KOther n => 0 <= n | _ => True end.
Lemma size_nonneg k : ok_kind k -> 0 <= size k. Proof. destruct k; cbn [FdTrail_Spec.size ok_kind]; lia. Qed.
Fixpoint stacked (top : Z) (os : list (Z * kind)) : Prop :=
  match os with [] => 0 < top | (a, k) :: r => ok_kind k /\ a + size k <= top /\ stacked a r end.
Lemma stacked_pos os : forall top, stacked top os -> 0 < top.
Proof. induction os as [|[a k] os IH]; cbn [stacked]; intros top; [auto|]. intros (O & L & R). apply IH in R. pose proof (size_nonneg k O). lia. Qed.
Lemma stacked_in os : forall top a k, stacked top os -> In (a, k) os -> 0 < a /\ a + size k <= top /\ 0 <= size k.
Proof.
  induction os as [|[b j] os IH]; cbn [stacked In]; intros top a k R I; [easy|]. destruct R as (O & L & R). pose proof (size_nonneg j O). destruct I as [E|I].
  - injection E as -> ->. apply stacked_pos in R. lia.
  - destruct (IH _ _ _ R I) as (? & ? & ?). lia.
Qed.
Lemma stacked_disj os : forall top a k b j, stacked top os -> In (a, k) os -> In (b, j) os -> (a = b /\ k = j) \/ a + size k <= b \/ b + size j <= a.
Proof.
  induction os as [|[c l] os IH]; cbn [stacked In]; intros top a k b j R I J; [easy|]. destruct R as (O & L & R). destruct I as [E|I], J as [F|J].
  - injection E as -> ->. injection F as -> ->. auto.
  - injection E as -> ->. destruct (stacked_in _ _ _ _ R J). lia.
  - injection F as -> ->. destruct (stacked_in _ _ _ _ R I). lia.
  - apply (IH _ _ _ _ _ R I J).
Qed.
Lemma stacked_app nw os top : stacked top (nw ++ os) -> exists top', stacked top' os /\ top' <= top.
Proof.
  revert top. induction nw as [|[a k] nw IH]; cbn [app stacked]; intros top R; [exists top; split; [exact R|lia]|].
  destruct R as (O & L & R). destruct (IH _ R) as (t & R' & Q). exists t. split; [exact R'|]. pose proof (size_nonneg k O). lia.
Qed.
Lemma stacked_mono os t1 t2 : stacked t1 os -> t1 <= t2 -> stacked t2 os.
Proof. destruct os as [|[a k] os]; cbn [stacked]; [lia|]. intros (O & L & R) Q. split; [exact O|]. split; [lia|exact R]. Qed.

(** ** The invariant *)
Record wf (mm : wmem) (top stp : Z) (os : list (Z * kind)) : Prop := Wf {
  wf_st : stacked top os;
  wf_rs : forall x k, In (x, k) os -> k = KVar \/ k = KInt -> mm (x + 4) <= stp /\ (mm (x + 8) = 0 \/ (In (mm (x + 8), KVec) os /\ x < mm (x + 8)));
  wf_chs : forall x, In (x, KVar) os -> mm (x + 9) <= stp }.
Record covered (mm : wmem) (c : snap) (e : list entry) : Prop := Covd {
  cv_range : forall x, In (x, KVar) (n_objs c) -> stamp (n_s c) + 1 <= mm (x + 4) ->
    (forall i, 4 <= i <= 8 -> cov e (x + i)) /\ (mm (x + 8) <> 0 -> mm (x + 8) < cs (n_s c) -> forall i, 0 <= i < Z.of_nat vs -> cov e (mm (x + 8) + i));
  cv_chains : forall x, In (x, KVar) (n_objs c) -> stamp (n_s c) + 1 <= mm (x + 9) -> forall i, 9 <= i <= 16 -> cov e (x + i) }.
Record good (mm : wmem) (t : list entry) (top stp : Z) (os : list (Z * kind)) (c : snap) : Prop := Good {
  gd_stp : stamp (n_s c) + 1 <= stp;
  gd_top : cs (n_s c) <= top;
  gd_st : stacked (cs (n_s c)) (n_objs c);
  gd_os : exists nw, os = nw ++ n_objs c /\ forall a k, In (a, k) nw -> cs (n_s c) <= a;
  gd_tr : exists e, t = e ++ tr (n_s c) /\ covered mm c e /\ forall a, a < cs (n_s c) -> ~ vol (n_objs c) a -> undo e mm a = m (n_s c) a }.
Fixpoint inv (mm : wmem) (t : list entry) (top stp : Z) (os : list (Z * kind)) (l : list snap) : Prop :=
  wf mm top stp os /\ (forall c, In c l -> good mm t top stp os c) /\
  match l with [] => True | c :: r => inv (m (n_s c)) (tr (n_s c)) (cs (n_s c)) (stamp (n_s c)) (n_objs c) r end.
Definition Inv (g : ghost) (s : st) : Prop :=
  inv (m s) (tr s) (cs s) (stamp s) (objs g) (snaps g) /\ cps s = map (fun c => Cp (cs (n_s c)) (length (tr (n_s c)))) (snaps g).

Lemma inv_wf mm t top stp os l : inv mm t top stp os l -> wf mm top stp os. Proof. destruct l; cbn [inv]; tauto. Qed.
Lemma inv_good mm t top stp os l c : inv mm t top stp os l -> In c l -> good mm t top stp os c. Proof. destruct l; cbn [inv]; intros (_ & G & _); apply G. Qed.
Lemma inv_intro mm t top stp os l : wf mm top stp os -> (forall c, In c l -> good mm t top stp os c) ->
  match l with [] => True | c :: r => inv (m (n_s c)) (tr (n_s c)) (cs (n_s c)) (stamp (n_s c)) (n_objs c) r end -> inv mm t top stp os l.
Proof. destruct l; cbn [inv]; auto. Qed.
Lemma inv_nest mm t top stp os l : inv mm t top stp os l -> match l with [] => True | c :: r => inv (m (n_s c)) (tr (n_s c)) (cs (n_s c)) (stamp (n_s c)) (n_objs c) r end.
Proof. destruct l; cbn [inv]; tauto. Qed.
Lemma inv_tl mm t top stp os c l : inv mm t top stp os (c :: l) -> inv mm t top stp os l.
Proof.
  intros I. apply inv_intro; [exact (inv_wf _ _ _ _ _ _ I)|intros d D; apply (inv_good _ _ _ _ _ _ d I); now right|].
  apply inv_nest in I. apply inv_nest in I. exact I.
Qed.
Lemma inv_skipn n : forall l mm t top stp os, inv mm t top stp os l -> inv mm t top stp os (skipn n l).
Proof. induction n as [|n IH]; intros l mm t top stp os I; [exact I|]. destruct l as [|c l]; [exact I|]. cbn [skipn]. apply IH. apply (inv_tl _ _ _ _ _ _ _ I). Qed.
Lemma inv_soft n : forall l mm t top stp os, inv mm t top stp os l -> inv mm t top stp os (firstn n l ++ skipn (S n) l).
Proof.
  induction n as [|n IH]; intros l mm t top stp os I.
  - cbn [firstn app]. apply (inv_skipn 1). exact I.
  - destruct l as [|c l]; [exact I|]. cbn [firstn app]. change (skipn (S (S n)) (c :: l)) with (skipn (S n) l).
    apply inv_intro; [exact (inv_wf _ _ _ _ _ _ I)| |apply IH; exact (inv_nest _ _ _ _ _ _ I)].
    intros d D. apply (inv_good _ _ _ _ _ _ d I). destruct D as [<-|D]; [now left|]. right. rewrite <- (firstn_skipn n l). apply in_app_iff. apply in_app_iff in D. destruct D as [D|D]; [now left|].
    right. change (S n) with (1 + n)%nat in D. rewrite <- (firstn_skipn 1 (skipn n l)). apply in_app_iff. right.
    replace (skipn 1 (skipn n l)) with (skipn (1 + n) l); [exact D|]. clear. revert l. induction n as [|n IH]; intros l; [reflexivity|]. destruct l as [|x l]; [reflexivity|]. cbn [skipn plus] in *. rewrite <- IH. destruct l; reflexivity.
Qed.
(** words that are not persistent may change, and the stamp may grow *)
Lemma inv_ext mm mm' t top stp stp' os l : inv mm t top stp os l -> (forall a, a < top -> ~ vol os a -> mm' a = mm a) -> stp <= stp' -> inv mm' t top stp' os l.
Proof.
  intros I E L. pose proof (inv_wf _ _ _ _ _ _ I) as W. pose proof W as [St Rs Ch].
  assert (NV : forall x k i, In (x, k) os -> (k = KVar /\ (4 <= i <= 9 \/ 11 <= i <= 16) \/ k = KInt /\ 4 <= i <= 8) -> mm' (x + i) = mm (x + i)).
  { intros x k i J Q. destruct (stacked_in _ _ _ _ St J) as (P & T & _). apply E.
    - destruct Q as [[-> Q]|[-> Q]]; cbn [FdTrail_Spec.size] in T; lia.
    - intros (y & j & K & V). destruct (stacked_disj _ _ _ _ _ _ St J K) as [[<- <-]|D].
      + destruct Q as [[-> Q]|[-> Q]]; destruct V as [[[?|?] V]|[[? V]|[? V]]]; try discriminate; lia.
      + destruct Q as [[-> Q]|[-> Q]]; destruct V as [[[->| ->] V]|[[-> V]|[-> V]]]; cbn [FdTrail_Spec.size] in D; lia. }
  apply inv_intro; [constructor; [exact St| |]| |exact (inv_nest _ _ _ _ _ _ I)].
  - intros x k J Q. rewrite !(NV x k) by (exact J || (destruct Q as [->| ->]; [left; split; [reflexivity|lia]|right; split; [reflexivity|lia]])). destruct (Rs x k J Q) as [A B]. split; [lia|exact B].
  - intros x J. rewrite (NV x KVar) by (exact J || (left; split; [reflexivity|lia])). pose proof (Ch x J). lia.
  - intros c C. destruct (inv_good _ _ _ _ _ _ c I C) as [G1 G2 G3 (nw & G4 & G4') (e & G5 & [V1 V2] & G6)].
    assert (J : forall x k, In (x, k) (n_objs c) -> In (x, k) os) by (intros x k J; rewrite G4; apply in_or_app; now right).
    constructor; [lia|exact G2|exact G3|exists nw; split; assumption|]. exists e. split; [exact G5|]. split.
    + constructor.
      * intros x X. rewrite !(NV x KVar) by (auto || (left; split; [reflexivity|lia])). apply V1. exact X.
      * intros x X. rewrite !(NV x KVar) by (auto || (left; split; [reflexivity|lia])). apply V2. exact X.
    + intros a A NVa. rewrite <- G6 by assumption. apply undo_at. left. apply E; [lia|].
      intros (y & j & K & V). rewrite G4 in K. apply in_app_iff in K. destruct K as [K|K].
      * pose proof (G4' _ _ K). lia.
      * apply NVa. exists y, j. auto.
Qed.

(** ** Steps that do not touch the choice points *)
Definition above (s : st) (c : snap) (e : list entry) : Prop := tr s = e ++ tr (n_s c).
Lemma inplace g s s' ne nw :
  Inv g s -> tr s' = ne ++ tr s -> Forall (truthful (m s)) ne -> stamp s' = stamp s -> cps s' = cps s -> cs s <= cs s' ->
  (forall a k, In (a, k) nw -> cs s <= a) -> wf (m s') (cs s') (stamp s) (nw ++ objs g) ->
  (forall a, m s' a <> m s a -> cs s <= a \/ vol (objs g) a \/ forall c e, In c (snaps g) -> above s c e -> cs (n_s c) <= a \/ cov (ne ++ e) a) ->
  (forall c e, In c (snaps g) -> above s c e -> forall x, In (x, KVar) (n_objs c) ->
     ((m s' (x + 4) = m s (x + 4) /\ m s' (x + 8) = m s (x + 8)) \/
      ((forall i, 4 <= i <= 8 -> cov (ne ++ e) (x + i)) /\ (m s' (x + 8) <> 0 -> m s' (x + 8) < cs (n_s c) -> forall i, 0 <= i < Z.of_nat vs -> cov (ne ++ e) (m s' (x + 8) + i)))) /\
     (m s' (x + 9) = m s (x + 9) \/ forall i, 9 <= i <= 16 -> cov (ne ++ e) (x + i))) ->
  Inv (Gh (nw ++ objs g) (snaps g) (nxt g)) s'.
Proof.
  intros [I C] T F S K L N W A G. split; [|rewrite K; exact C]. cbn [objs snaps]. rewrite S. apply inv_intro; [exact W| |exact (inv_nest _ _ _ _ _ _ I)].
  intros c D. destruct (inv_good _ _ _ _ _ _ c I D) as [G1 G2 G3 (nw0 & G4 & G4') (e & G5 & [V1 V2] & G6)].
  constructor; [exact G1|lia|exact G3| |].
  - exists (nw ++ nw0). split; [rewrite G4; apply app_assoc|]. intros a k J. apply in_app_iff in J. destruct J as [J|J]; [pose proof (N _ _ J); lia|exact (G4' _ _ J)].
  - exists (ne ++ e). split; [rewrite T, G5; apply app_assoc|]. split.
    + constructor; intros x X Q; destruct (G c e D G5 x X) as [R1 R2].
      * destruct R1 as [[E1 E2]|R1]; [|exact R1]. rewrite E1 in Q. rewrite E2. destruct (V1 x X Q) as [U1 U2].
        split; [intros i Hi; apply cov_app_r; auto|intros Z1 Z2 i Hi; apply cov_app_r; auto].
      * destruct R2 as [E1|R2]; [|exact R2]. rewrite E1 in Q. intros i Hi. apply cov_app_r. apply (V2 x X Q i Hi).
    + intros a Ha NV. rewrite undo_app. rewrite <- (G6 a Ha NV). destruct (Z.eq_dec (m s' a) (m s a)) as [E|E].
      * apply undo_at. left. rewrite (undo_at ne (m s') (m s) a) by (left; exact E). apply undo_truthful. exact F.
      * destruct (A a E) as [Q|[(y & j & J & V)|Q]]; [lia| |].
        { exfalso. rewrite G4 in J. apply in_app_iff in J. destruct J as [J|J].
          - pose proof (G4' _ _ J). lia.
          - apply NV. exists y, j. auto. }
        destruct (Q c e D G5) as [Q'|(en & In' & Cv)]; [lia|]. apply in_app_iff in In'. destruct In' as [J|J].
        { apply undo_at. left. transitivity (undo ne (m s) a); [apply undo_at; right; exists en; auto|apply undo_truthful; exact F]. }
        { apply undo_at. right. exists en. auto. }
Qed.
(** ** Frames *)
Definition only (P : Z -> Prop) (s s' : st) : Prop :=
  tr s' = tr s /\ stamp s' = stamp s /\ date s' = date s /\ cps s' = cps s /\ forall a, ~ P a -> m s' a = m s a.
Lemma only_refl P s : only P s s. Proof. repeat split. Qed.
Lemma only_trans P s1 s2 s3 : only P s1 s2 -> only P s2 s3 -> only P s1 s3.
Proof. intros (A & B & C & D & E) (A' & B' & C' & D' & E'). unfold only. rewrite A', B', C', D'. repeat split; auto. intros a N. rewrite E' by exact N. auto. Qed.
Lemma only_put (P : Z -> Prop) s a v : P a -> only P s (put s a v).
Proof. intros Q. repeat split. intros b N. unfold put, set_m. cbn [m]. apply wr_other. intros ->. auto. Qed.
Lemma only_puts (P : Z -> Prop) s a l : (forall i, 0 <= i < Z.of_nat (length l) -> P (a + i)) -> only P s (puts s a l).
Proof.
  intros Q. repeat split. intros b N. unfold puts, set_m. cbn [m]. apply wrs_other.
  destruct (Z_lt_dec b a) as [|G]; [now left|]. destruct (Z_lt_dec b (a + Z.of_nat (length l))) as [J|]; [|lia]. exfalso. apply N. replace b with (a + (b - a)) by lia. apply Q. lia.
Qed.
Lemma only_set_cs P s v : only P s (set_cs s v). Proof. repeat split. Qed.
Lemma only_if P (b : bool) s s1 s2 : only P s s1 -> only P s s2 -> only P s (if b then s1 else s2). Proof. destruct b; auto. Qed.
Lemma wrs_nth l : forall mm a i, 0 <= i < Z.of_nat (length l) -> wrs mm a l (a + i) = nth (Z.to_nat i) l 0.
Proof.
  induction l as [|v l IH]; intros mm a i Hi; cbn [wrs length] in *; [lia|]. destruct (Z.eq_dec i 0) as [->|N].
  - rewrite Z.add_0_r. rewrite wrs_other by lia. apply wr_same.
  - replace (a + i) with (a + 1 + (i - 1)) by lia. rewrite IH by lia. replace (Z.to_nat i) with (S (Z.to_nat (i - 1))) by lia. reflexivity.
Qed.

Lemma where_obj g s c x k : Inv g s -> In c (snaps g) -> In (x, k) (objs g) -> In (x, k) (n_objs c) \/ cs (n_s c) <= x.
Proof.
  intros [I _] C J. destruct (inv_good _ _ _ _ _ _ c I C) as [_ _ _ (nw & E & N) _]. rewrite E in J. apply in_app_iff in J. destruct J as [J|J]; [right; exact (N _ _ J)|now left].
Qed.
Lemma newest g s c r : Inv g s -> cps s = c :: r -> forall d, In d (snaps g) -> cs (n_s d) <= c_cs c.
Proof.
  intros [I C] E d D. rewrite C in E. destruct (snaps g) as [|c0 l] eqn:Q; [easy|]. cbn [map] in E. injection E as <- _. cbn [c_cs].
  destruct D as [->|D]; [lia|]. apply inv_nest in I. destruct (inv_good _ _ _ _ _ _ d I D) as [_ G _ _ _]. exact G.
Qed.
Lemma not_needed g s a : Inv g s -> FD_Word_Needs_Trailing s a = false -> forall c, In c (snaps g) -> cs (n_s c) <= a.
Proof.
  intros I F c C. pose proof I as [_ E]. unfold FD_Word_Needs_Trailing in F. destruct (cps s) as [|d r] eqn:Q.
  - destruct (snaps g); [easy|discriminate].
  - apply Z.ltb_ge in F. pose proof (newest g s d r I Q c C). lia.
Qed.
Lemma wf_frame mm mm' top top' stp os : wf mm top stp os -> top <= top' ->
  (forall x k, In (x, k) os -> k = KVar \/ k = KInt -> mm' (x + 4) = mm (x + 4) /\ mm' (x + 8) = mm (x + 8)) ->
  (forall x, In (x, KVar) os -> mm' (x + 9) = mm (x + 9)) -> wf mm' top' stp os.
Proof.
  intros [A B C] L D E. constructor; [apply (stacked_mono _ _ _ A L)| |].
  - intros x k I Q. destruct (D x k I Q) as [-> ->]. apply (B x k I Q).
  - intros x I. rewrite E by exact I. auto.
Qed.

(** ** Saving a range *)
Lemma save_range g s x : Inv g s -> In (x, KVar) (objs g) -> let s1 := Trail_Range_If_Necessary vs s x in
  exists ne, tr s1 = ne ++ tr s /\ Forall (truthful (m s)) ne /\ stamp s1 = stamp s /\ cps s1 = cps s /\ cs s1 = cs s /\ date s1 = date s /\
    (forall a, a <> x + 4 -> m s1 a = m s a) /\ m s1 (x + 4) = stamp s /\
    forall c e, In c (snaps g) -> above s c e -> cs (n_s c) <= x \/
      ((forall i, 4 <= i <= 8 -> cov (ne ++ e) (x + i)) /\ (m s (x + 8) <> 0 -> m s (x + 8) < cs (n_s c) -> forall i, 0 <= i < Z.of_nat vs -> cov (ne ++ e) (m s (x + 8) + i))).
Proof.
  intros I J s1. unfold s1, Trail_Range_If_Necessary, Range_Stamp, OFFSET_RANGE. clear s1. destruct (Z.eqb_spec (m s (x + 4)) (stamp s)) as [E|E].
  - exists []. cbn [app]. split; [reflexivity|]. split; [constructor|]. do 4 (split; [reflexivity|]). split; [reflexivity|]. split; [exact E|].
    intros c e C A. destruct (where_obj g s c x KVar I C J) as [O|O]; [right|now left]. destruct I as [I _].
    destruct (inv_good _ _ _ _ _ _ c I C) as [G1 _ _ _ (e' & T & [V _] & _)]. assert (e' = e) by (unfold above in A; rewrite A in T; apply app_inv_tail in T; congruence). subst e'.
    apply V; [exact O|]. rewrite E. exact G1.
  - set (s2 := Trail_MV s (x + 4) RANGE_SIZE).
    exists ((if Is_Sparse s2 x then [TMV (m s (x + 8)) (rds (m s) (m s (x + 8)) vs)] else []) ++ [TMV (x + 4) (rds (m s) (x + 4) 5)]).
    assert (SP : Is_Sparse s2 x = negb (m s (x + 8) =? 0)) by (unfold Is_Sparse, Vec, OFFSET_RANGE; replace (x + 4 + 4) with (x + 8) by lia; reflexivity).
    assert (C1 : forall e i, 4 <= i <= 8 -> cov (((if Is_Sparse s2 x then [TMV (m s (x + 8)) (rds (m s) (m s (x + 8)) vs)] else []) ++ [TMV (x + 4) (rds (m s) (x + 4) 5)]) ++ e) (x + i)).
    { intros e i Hi. apply cov_app_l, cov_app_r. eexists. split; [now left|]. cbn [cov1 rds length]. lia. }
    assert (C2 : forall e, m s (x + 8) <> 0 -> forall i, 0 <= i < Z.of_nat vs -> cov (((if Is_Sparse s2 x then [TMV (m s (x + 8)) (rds (m s) (m s (x + 8)) vs)] else []) ++ [TMV (x + 4) (rds (m s) (x + 4) 5)]) ++ e) (m s (x + 8) + i)).
    { intros e N i Hi. apply cov_app_l, cov_app_l. rewrite SP. destruct (Z.eqb_spec (m s (x + 8)) 0); [contradiction|]. cbn [negb]. eexists. split; [now left|]. cbn [cov1]. rewrite rds_length. lia. }
    assert (FT : Forall (truthful (m s)) ((if Is_Sparse s2 x then [TMV (m s (x + 8)) (rds (m s) (m s (x + 8)) vs)] else []) ++ [TMV (x + 4) (rds (m s) (x + 4) 5)])).
    { apply Forall_app. split; [destruct (Is_Sparse s2 x); repeat constructor; cbn [truthful]; rewrite rds_length; reflexivity|repeat constructor]. }
    split.
    { destruct (Is_Sparse s2 x); [|reflexivity]. cbn [app]. unfold Vec, OFFSET_RANGE. replace (x + 4 + 4) with (x + 8) by lia. reflexivity. }
    split; [exact FT|]. split; [destruct (Is_Sparse s2 x); reflexivity|]. split; [destruct (Is_Sparse s2 x); reflexivity|]. split; [destruct (Is_Sparse s2 x); reflexivity|]. split; [destruct (Is_Sparse s2 x); reflexivity|].
    split; [intros a N; destruct (Is_Sparse s2 x); cbn [put set_m m]; apply wr_other; exact N|].
    split; [destruct (Is_Sparse s2 x); cbn [put set_m m]; apply wr_same|].
    intros c e C A. right. split; [apply C1|intros N _; apply C2; exact N].
Qed.

(** the words an update of [x] changes *)
Definition rwords (s : st) (x a : Z) : Prop := 4 <= a - x <= 8 \/ (m s (x + 8) <> 0 /\ 0 <= a - m s (x + 8) < Z.of_nat vs) \/ cs s <= a.
Lemma range_op g s s' x ne nw : Inv g s -> In (x, KVar) (objs g) ->
  tr s' = ne ++ tr s -> Forall (truthful (m s)) ne -> stamp s' = stamp s -> cps s' = cps s ->
  (forall c e, In c (snaps g) -> above s c e -> cs (n_s c) <= x \/
      ((forall i, 4 <= i <= 8 -> cov (ne ++ e) (x + i)) /\ (m s (x + 8) <> 0 -> m s (x + 8) < cs (n_s c) -> forall i, 0 <= i < Z.of_nat vs -> cov (ne ++ e) (m s (x + 8) + i)))) ->
  (forall a, 0 <= a - x <= 1 -> m s' a = m s a \/ forall c e, In c (snaps g) -> above s c e -> cs (n_s c) <= x \/ cov (ne ++ e) a) ->
  (forall a, ~ (0 <= a - x <= 1) -> ~ rwords s x a -> m s' a = m s a) -> m s' (x + 4) <= stamp s ->
  (nw = [] /\ cs s' = cs s /\ (m s' (x + 8) = m s (x + 8) \/ m s' (x + 8) = 0)) \/ (nw = [(cs s, KVec)] /\ cs s' = cs s + Z.of_nat vs /\ m s' (x + 8) = cs s) ->
  Inv (Gh (nw ++ objs g) (snaps g) (nxt g)) s'.
Proof.
  intros I J T F S K SV TG FR ST NW. pose proof I as [I0 _]. pose proof (inv_wf _ _ _ _ _ _ I0) as W. pose proof W as [W1 W2 W3].
  destruct (stacked_in _ _ _ _ W1 J) as (X0 & X1 & _). cbn [FdTrail_Spec.size] in X1.
  assert (VB : m s (x + 8) = 0 \/ (In (m s (x + 8), KVec) (objs g) /\ x < m s (x + 8))) by (apply (W2 x KVar J); now left).
  assert (VD : forall y k, In (y, k) (objs g) -> k <> KVec -> y <> x -> forall i, 0 <= i < size k -> ~ rwords s x (y + i) /\ ~ 0 <= y + i - x <= 1).
  { intros y k Y NK NX i Hi. destruct (stacked_in _ _ _ _ W1 Y) as (Y0 & Y1 & _). destruct (stacked_disj _ _ _ _ _ _ W1 J Y) as [[? ?]|D]; [congruence|]. cbn [FdTrail_Spec.size] in D.
    split; [|lia]. intros [Q|[[Q Q']|Q]]; [lia| |lia]. destruct VB as [?|[VB _]]; [contradiction|].
    destruct (stacked_disj _ _ _ _ _ _ W1 VB Y) as [[? ?]|D']; [congruence|]. cbn [FdTrail_Spec.size] in D'. lia. }
  assert (X9 : m s' (x + 9) = m s (x + 9)).
  { apply FR; [lia|]. intros [Q|[[Q Q']|Q]]; [lia| |lia]. destruct VB as [?|[VB _]]; [contradiction|].
    destruct (stacked_disj _ _ _ _ _ _ W1 VB J) as [[? ?]|D']; [discriminate|]. cbn [FdTrail_Spec.size] in D'. lia. }
  assert (OT : forall y k, In (y, k) (objs g) -> k = KVar \/ k = KInt -> y <> x -> m s' (y + 4) = m s (y + 4) /\ m s' (y + 8) = m s (y + 8)).
  { intros y k Y Q NX. assert (NK : k <> KVec) by (destruct Q as [->| ->]; discriminate).
    split; (apply FR; [apply (VD y k Y NK NX)|apply (VD y k Y NK NX)]); destruct Q as [->| ->]; cbn [FdTrail_Spec.size]; lia. }
  assert (KX : forall k, In (x, k) (objs g) -> k = KVar \/ k = KInt -> k = KVar).
  { intros k Y Q. destruct (stacked_disj _ _ _ _ _ _ W1 J Y) as [[_ <-]|D]; [reflexivity|]. destruct Q as [->| ->]; cbn [FdTrail_Spec.size] in D; lia. }
  assert (CS : cs s <= cs s') by (destruct NW as [(_ & -> & _)|(_ & -> & _)]; lia).
  assert (NEW : forall a k, In (a, k) nw -> cs s <= a /\ k = KVec).
  { intros a k Q. destruct NW as [(-> & _)|(-> & _)]; cbn [In] in Q; [easy|]. destruct Q as [Q|[]]. injection Q as <- <-. split; [lia|reflexivity]. }
  apply (inplace g s s' ne nw I T F S K CS).
  - intros a k Q. apply (NEW a k Q).
  - constructor.
    + destruct NW as [(-> & Q & _)|(-> & Q & _)]; cbn [app stacked]; rewrite Q; [exact W1|]. split; [exact Logic.I|]. split; [cbn [FdTrail_Spec.size]; lia|exact W1].
    + intros y k Y Q. apply in_app_iff in Y. destruct Y as [Y|Y]; [destruct (NEW y k Y) as [_ ->]; destruct Q; discriminate|].
      destruct (Z.eq_dec y x) as [->|NX].
      * split; [exact ST|]. destruct NW as [(-> & _ & [E|E])|(-> & _ & E)]; rewrite E; [exact VB|now left|]. right. split; [now left|]. lia.
      * destruct (OT y k Y Q NX) as [-> ->]. destruct (W2 y k Y Q) as [A B]. split; [exact A|]. destruct B as [B|[B B']]; [now left|]. right. split; [apply in_or_app; now right|exact B'].
    + intros y Y. apply in_app_iff in Y. destruct Y as [Y|Y]; [destruct (NEW y _ Y) as [_ ?]; discriminate|]. destruct (Z.eq_dec y x) as [->|NX]; [rewrite X9; auto|].
      rewrite FR; [auto|apply (VD y KVar Y); [discriminate|exact NX|cbn [FdTrail_Spec.size]; lia]|apply (VD y KVar Y); [discriminate|exact NX|cbn [FdTrail_Spec.size]; lia]].
  - intros a N. destruct (Z_le_gt_dec (cs s) a) as [|LT]; [now left|]. right. right. intros c e C A.
    destruct (SV c e C A) as [Q|[S1 S2]].
    + left. destruct (Z_lt_dec a (cs (n_s c))) as [Q'|]; [|lia]. exfalso. apply N. destruct (Z_le_gt_dec x a); [lia|]. apply FR; [lia|]. intros [R|[[R R']|R]]; [lia| |lia].
      destruct VB as [?|[_ VB]]; [contradiction|lia].
    + destruct (Z_lt_dec a (cs (n_s c))) as [Q'|]; [|left; lia]. right.
      destruct (Z_le_dec 0 (a - x)) as [P1|P1]; [destruct (Z_le_dec (a - x) 1) as [P2|P2]|].
      * destruct (TG a (conj P1 P2)) as [E|E]; [contradiction|]. destruct (E c e C A) as [E'|E']; [|exact E']. lia.
      * destruct (Z_le_dec 4 (a - x)), (Z_le_dec (a - x) 8); try (replace a with (x + (a - x)) by lia; apply S1; lia);
          (destruct (Z.eq_dec (m s (x + 8)) 0) as [V0|V0]; [exfalso; apply N, FR; [lia|intros [R|[[R R']|R]]; [lia|contradiction|lia]]|]);
          (destruct (Z_le_dec 0 (a - m s (x + 8))), (Z_lt_dec (a - m s (x + 8)) (Z.of_nat vs));
           [replace a with (m s (x + 8) + (a - m s (x + 8))) by lia; apply S2; [exact V0|lia|lia]|exfalso; apply N, FR; [lia|intros [R|[[R R']|R]]; lia]..]).
      * exfalso. apply N, FR; [lia|]. intros [R|[[R R']|R]]; [lia| |lia]. destruct VB as [?|[_ VB]]; [contradiction|lia].
  - intros c e C A y Y. assert (YO : In (y, KVar) (objs g)).
    { destruct (inv_good _ _ _ _ _ _ c I0 C) as [_ _ _ (nw0 & E & _) _]. rewrite E. apply in_or_app. now right. }
    destruct (Z.eq_dec y x) as [->|NX].
    + split; [|left; exact X9]. right. destruct (SV c e C A) as [Q|[S1 S2]].
      { destruct (inv_good _ _ _ _ _ _ c I0 C) as [_ _ G3 _ _]. destruct (stacked_in _ _ _ _ G3 Y) as (_ & Q' & _). cbn [FdTrail_Spec.size] in Q'. lia. }
      split; [exact S1|]. intros N0 LT. destruct NW as [(_ & _ & [E|E])|(_ & _ & E)]; rewrite E in *; [apply S2; assumption|contradiction|].
      destruct (inv_good _ _ _ _ _ _ c I0 C) as [_ G2 _ _ _]. lia.
    + split; [left; apply (OT y KVar YO (or_introl eq_refl) NX)|left].
      apply FR; [apply (VD y KVar YO); [discriminate|exact NX|cbn [FdTrail_Spec.size]; lia]|apply (VD y KVar YO); [discriminate|exact NX|cbn [FdTrail_Spec.size]; lia]].
Qed.
End P.
