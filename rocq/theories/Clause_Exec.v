(** C60: the executions of the code, step by step. *)
Require Import List Bool Arith Lia.
Require Import Verif.RegAlloc_Model Verif.RegAlloc_Spec Verif.RegAlloc_Graph Verif.RegAlloc_Proofs Verif.Clause_Model Verif.Clause_Spec.
Import ListNotations.

Lemma reg_eqb_eq : forall x y, reg_eqb x y = true -> x = y.
Proof. intros x y E. destruct (reg_eqb_spec x y); congruence. Qed.

(** * Registers which are defined before they are read *)
Fixpoint fwd (D : reg -> Prop) (l : list inst) : Prop :=
  match l with
  | [] => True
  | i :: l => (forall x, In x (reads_of i) -> D x) /\ fwd (fun x => (lost_by i = false /\ D x) \/ In x (writes_of i)) l
  end.
Lemma fwd_needed : forall l D x, fwd D l -> needed x l -> D x.
Proof.
  induction l as [|i l IH]; intros D x F N; cbn in *; [contradiction|]. destruct F as (F1 & F2). destruct N as [N|(N1 & N2)]; [auto|].
  specialize (IH _ _ F2 N2). cbn in IH. tauto.
Qed.
Lemma fwd_app : forall l1 l2 D, fwd D (l1 ++ l2) -> exists D', fwd D' l2 /\ forall x, D' x -> D x \/ In x (flat_map writes_of l1).
Proof.
  induction l1 as [|i l1 IH]; intros l2 D F; cbn in *; [exists D; auto|]. destruct F as (_ & F). destruct (IH _ _ F) as (D' & F' & P).
  exists D'. split; [exact F'|]. intros x Hx. rewrite in_app_iff. destruct (P x Hx) as [[(_ & Q)|Q]|Q]; auto.
Qed.
Lemma fwd_ext : forall l (D D' : reg -> Prop), (forall x, D x -> D' x) -> fwd D l -> fwd D' l.
Proof.
  induction l as [|i l IH]; intros D D' E F; cbn in *; [constructor|]. destruct F as (F1 & F2). split; [auto|]. revert F2. apply IH. intros x [(? & ?)|?]; auto.
Qed.

Section Exec.
Variable V : Type.
Variable cst : const -> V.
Variable fn : nat -> list V -> V.
Notation accept := (accept V cst fn).
Notation accepted := (accepted V cst fn).

Definition exec1 (i : inst) (m : reg -> V) (q : mach V) (m' : reg -> V) (q' : mach V) : Prop :=
  match effect_of i with
  | Copy x y => m' = write V m y (m x) /\ q' = q
  | Op rd lost wr => exists v o, m' = writes V (if lost then o else m) (map (fun p => (fst p, v)) wr) /\ accept (label_of i) (map m rd) v q q'
  end.
Fixpoint exec (l : list inst) (m : reg -> V) (q : mach V) (m' : reg -> V) (q' : mach V) : Prop :=
  match l with
  | [] => m' = m /\ q' = q
  | i :: l => exists m1 q1, exec1 i m q m1 q1 /\ exec l m1 q1 m' q'
  end.
Lemma exec_app : forall l1 l2 m q m' q', exec (l1 ++ l2) m q m' q' <-> exists m1 q1, exec l1 m q m1 q1 /\ exec l2 m1 q1 m' q'.
Proof.
  induction l1 as [|i l1 IH]; intros l2 m q m' q'; cbn.
  - split; [intros H; exists m, q; auto|intros (m1 & q1 & (-> & ->) & H); exact H].
  - split.
    + intros (m1 & q1 & E & H). apply IH in H. destruct H as (m2 & q2 & H1 & H2). exists m2, q2. split; [exists m1, q1; auto|exact H2].
    + intros (m2 & q2 & (m1 & q1 & E & H1) & H2). exists m1, q1. split; [exact E|]. apply IH. exists m2, q2. auto.
Qed.
Lemma wr0 : forall i rd lost wr, effect_of i = Op rd lost wr -> forall p, In p wr -> snd p = 0.
Proof. intros i rd lost wr E p H. destruct i; cbn in E; try discriminate E; injection E as <- <- <-; cbn in H; try (destruct H as [<-|[]]; reflexivity); try contradiction; try (destruct H as [<-|[<-|[]]]; reflexivity). destruct ret; cbn in H; [destruct H as [<-|[]]; reflexivity|contradiction]. Qed.

(** ** The runs and the executions *)
Lemma run_exec : forall result rest l m tr q0 q', accepted result (snd (run V result rest l (m, tr))) q0 q' ->
  exists q m', accepted result tr q0 q /\ exec l m q m' q'.
Proof.
  intros result rest. induction l as [|i l IH]; intros m tr q0 q' H; cbn in H.
  - exists q', m. split; [exact H|]. cbn. auto.
  - unfold step in H. destruct (effect_of i) as [x y|rd lost wr] eqn:E.
    + destruct (IH _ _ _ _ H) as (q & m' & H1 & H2). exists q, m'. split; [exact H1|]. cbn. exists (write V m y (m x)), q. split; [unfold exec1; rewrite E; auto|exact H2].
    + destruct (IH _ _ _ _ H) as (q & m' & (q1 & H1 & H3) & H2). cbn in H3. exists q1, m'. split; [exact H1|]. cbn. eexists _, q. split; [|exact H2].
      unfold exec1. rewrite E. exists (result ((label_of i, map m rd) :: tr) 0), (rest ((label_of i, map m rd) :: tr)). split; [|exact H3].
      f_equal. apply map_ext_in. intros p Hp. rewrite (wr0 _ _ _ _ E p Hp). reflexivity.
Qed.
Definition from (vs : list (V * (reg -> V))) (k : nat) (p : V * (reg -> V)) (tr : list (event V)) : V * (reg -> V) := nth (length tr - S k) vs p.
Lemma exec_run : forall (p : V * (reg -> V)) l m q m' q', exec l m q m' q' -> exists vs, forall result rest k, 
  (forall tr, k < length tr -> (forall j, result tr j = fst (from vs k p tr)) /\ rest tr = snd (from vs k p tr)) ->
  forall tr q0, length tr = k -> accepted result tr q0 q -> accepted result (snd (run V result rest l (m, tr))) q0 q'.
Proof.
  intros p. induction l as [|i l IH]; intros m q m' q' H; cbn in H.
  - destruct H as (-> & ->). exists []. intros result rest k _ tr q0 _ Q. exact Q.
  - destruct H as (m1 & q1 & E1 & H). destruct (IH _ _ _ _ H) as (vs & P). unfold exec1 in E1. destruct (effect_of i) as [x y|rd lost wr] eqn:E.
    + destruct E1 as (-> & ->). exists vs. intros result rest k R tr q0 L Q. cbn [run step]. unfold step. rewrite E. apply (P result rest k R _ _ L Q).
    + destruct E1 as (v & o & -> & AC). exists ((v, o) :: vs). intros result rest k R tr q0 L Q. cbn [run]. unfold step. rewrite E.
      assert (R0 := R ((label_of i, map m rd) :: tr)). cbn [length] in R0. rewrite L in R0. specialize (R0 (Nat.lt_succ_diag_r k)). unfold from in R0. cbn [length] in R0. rewrite L, Nat.sub_diag in R0. cbn in R0. destruct R0 as (R0 & R1).
      assert (EW : writes V (if lost then rest ((label_of i, map m rd) :: tr) else m) (map (fun p => (fst p, result ((label_of i, map m rd) :: tr) (snd p))) wr) = writes V (if lost then o else m) (map (fun p => (fst p, v)) wr)).
      { rewrite R1. f_equal. apply map_ext. intros w0. rewrite R0. reflexivity. }
      rewrite EW. apply (P result rest (S k)).
      * intros tr1 L1. destruct (R tr1 ltac:(lia)) as (R2 & R3). unfold from in *. replace (length tr1 - S k) with (S (length tr1 - S (S k))) in R2, R3 by lia. cbn [nth] in R2, R3. auto.
      * cbn. congruence.
      * cbn. exists q. split; [exact Q|]. rewrite R0. exact AC.
Qed.
Lemma code_means_exec : forall l m goals, code_means V cst fn l m goals <-> exists m', exec l m (Mach V (NoEnv V) [] []) m' (Mach V (Left V) [] goals).
Proof.
  intros l m goals. split.
  - intros (result & rest & H). apply run_exec in H. destruct H as (q & m' & H1 & H2). cbn in H1. subst q. exists m'. exact H2.
  - intros (m' & H). destruct (exec_run (m (A 0), m) _ _ _ _ _ H) as (vs & P). exists (fun tr _ => fst (from vs 0 (m (A 0), m) tr)), (fun tr => snd (from vs 0 (m (A 0), m) tr)).
    apply (P _ _ 0); cbn; auto.
Qed.

(** ** What an execution leaves as it is *)
Lemma writes_other : forall l m x, ~ In x (map fst l) -> writes V m l x = m x.
Proof.
  induction l as [|(y, v) l IH]; intros m x H; cbn in *; [reflexivity|]. rewrite IH by tauto. unfold write. destruct (reg_eqb y x) eqn:E; [|reflexivity]. apply reg_eqb_eq in E. tauto.
Qed.
Lemma exec1_other : forall i m q m' q' x, exec1 i m q m' q' -> lost_by i = false -> ~ In x (writes_of i) -> m' x = m x.
Proof.
  intros i m q m' q' x H L W. unfold exec1, lost_by, writes_of in *. destruct (effect_of i) as [y z|rd lost wr].
  - destruct H as (-> & _). unfold write. destruct (reg_eqb z x) eqn:E; [|reflexivity]. apply reg_eqb_eq in E. cbn in W. tauto.
  - subst lost. destruct H as (v & o & -> & _). apply writes_other. rewrite map_map. exact W.
Qed.
Lemma exec_other : forall l m q m' q' x, exec l m q m' q' -> (forall i, In i l -> lost_by i = false) -> ~ In x (flat_map writes_of l) -> m' x = m x.
Proof.
  induction l as [|i l IH]; intros m q m' q' x H L W; cbn in *; [destruct H as (-> & _); reflexivity|]. destruct H as (m1 & q1 & H1 & H). rewrite in_app_iff in W.
  rewrite (IH _ _ _ _ x H) by auto. apply (exec1_other _ _ _ _ _ _ H1); auto.
Qed.

(** * With registers which are not defined *)
Definition pexec1 (i : inst) (d : reg -> option V) (q : mach V) (d' : reg -> option V) (q' : mach V) : Prop :=
  match effect_of i with
  | Copy x y => d x <> None /\ d' = write _ d y (d x) /\ q' = q
  | Op rd lost wr => exists v vs, map d rd = map Some vs /\ d' = writes _ (if lost then fun _ => None else d) (map (fun p => (fst p, Some v)) wr) /\ accept (label_of i) vs v q q'
  end.
Fixpoint pexec (l : list inst) (d : reg -> option V) (q : mach V) (d' : reg -> option V) (q' : mach V) : Prop :=
  match l with
  | [] => d' = d /\ q' = q
  | i :: l => exists d1 q1, pexec1 i d q d1 q1 /\ pexec l d1 q1 d' q'
  end.
Lemma pexec_app : forall l1 l2 m q m' q', pexec (l1 ++ l2) m q m' q' <-> exists m1 q1, pexec l1 m q m1 q1 /\ pexec l2 m1 q1 m' q'.
Proof.
  induction l1 as [|i l1 IH]; intros l2 m q m' q'; cbn.
  - split; [intros H; exists m, q; auto|intros (m1 & q1 & (-> & ->) & H); exact H].
  - split.
    + intros (m1 & q1 & E & H). apply IH in H. destruct H as (m2 & q2 & H1 & H2). exists m2, q2. split; [exists m1, q1; auto|exact H2].
    + intros (m2 & q2 & (m1 & q1 & E & H1) & H2). exists m1, q1. split; [exact E|]. apply IH. exists m2, q2. auto.
Qed.
Definition extends (m : reg -> V) (d : reg -> option V) : Prop := forall x v, d x = Some v -> m x = v.
Lemma extends_write : forall m d x v, extends m d -> extends (write _ m x v) (write _ d x (Some v)).
Proof. intros m d x v E y u. unfold write. destruct (reg_eqb x y); [congruence|apply E]. Qed.
Lemma extends_writes : forall l m d v, extends m d -> extends (writes _ m (map (fun p : reg * nat => (fst p, v)) l)) (writes _ d (map (fun p => (fst p, Some v)) l)).
Proof. induction l as [|p l IH]; intros m d v E; cbn; [exact E|]. apply IH. apply extends_write. exact E. Qed.
Lemma pexec_exec : forall l d q d' q' m, pexec l d q d' q' -> extends m d -> exists m', exec l m q m' q' /\ extends m' d'.
Proof.
  induction l as [|i l IH]; intros d q d' q' m H E; cbn in *.
  - destruct H as (-> & ->). exists m. auto.
  - destruct H as (d1 & q1 & H1 & H). assert (X : exists m1, exec1 i m q m1 q1 /\ extends m1 d1).
    { unfold exec1, pexec1 in *. destruct (effect_of i) as [x y|rd lost wr].
      - destruct H1 as (N & -> & ->). destruct (d x) as [v|] eqn:ED; [|congruence]. exists (write V m y (m x)). split; [auto|]. rewrite (E x v ED). apply extends_write. exact E.
      - destruct H1 as (v & vs & ER & -> & AC). exists (writes V (if lost then m else m) (map (fun p => (fst p, v)) wr)). split.
        + exists v, m. split; [destruct lost; reflexivity|]. replace (map m rd) with vs; [exact AC|]. clear AC. revert vs ER. induction rd as [|x rd IHr]; intros [|u vs] ER; try discriminate ER; [reflexivity|]. cbn in *. injection ER as ER1 ER2. rewrite (E _ _ ER1), <- (IHr vs ER2). reflexivity.
        + apply extends_writes. destruct lost; [intros x u Q; discriminate Q|exact E]. }
    destruct X as (m1 & X1 & X2). destruct (IH _ _ _ _ _ H X2) as (m' & Y1 & Y2). exists m'. split; [exists m1, q1; auto|exact Y2].
Qed.
Lemma pwrites_def : forall l d x (v : V), writes _ d (map (fun p : reg * nat => (fst p, Some v)) l) x <> None -> d x <> None \/ In x (map fst l).
Proof.
  induction l as [|p l IH]; intros d x v H; cbn in *; [auto|]. apply IH in H. destruct H as [H|H]; [|auto]. unfold write in H. destruct (reg_eqb (fst p) x) eqn:E; [apply reg_eqb_eq in E; auto|auto].
Qed.
Lemma pexec_fwd : forall l d q d' q', pexec l d q d' q' -> fwd (fun x => d x <> None) l.
Proof.
  induction l as [|i l IH]; intros d q d' q' H; cbn in *; [constructor|]. destruct H as (d1 & q1 & H1 & H). apply IH in H. split.
  - intros x Hx. unfold pexec1, reads_of in *. destruct (effect_of i) as [a b|rd lost wr]; [cbn in Hx; destruct Hx as [<-|[]]; tauto|]. destruct H1 as (v & vs & ER & _).
    assert (Q : In (d x) (map Some vs)) by (rewrite <- ER; apply in_map; exact Hx). apply in_map_iff in Q. destruct Q as (u & <- & _). discriminate.
  - revert H. apply fwd_ext. intros x Hx. unfold pexec1, lost_by, writes_of in *. destruct (effect_of i) as [a b|rd lost wr].
    + destruct H1 as (_ & -> & _). unfold write in Hx. destruct (reg_eqb b x) eqn:E; [apply reg_eqb_eq in E; right; left; exact E|auto].
    + destruct H1 as (v & vs & _ & -> & _). apply pwrites_def in Hx. destruct Hx as [Hx|Hx]; [|auto]. destruct lost; [congruence|auto].
Qed.
Lemma pwrites_other : forall l d x (v : V), ~ In x (map fst l) -> writes _ d (map (fun p : reg * nat => (fst p, Some v)) l) x = d x.
Proof.
  induction l as [|p l IH]; intros d x v H; cbn in *; [reflexivity|]. rewrite IH by tauto. unfold write. destruct (reg_eqb (fst p) x) eqn:E; [|reflexivity]. apply reg_eqb_eq in E. tauto.
Qed.
Lemma pexec1_other : forall i m q m' q' x, pexec1 i m q m' q' -> lost_by i = false -> ~ In x (writes_of i) -> m' x = m x.
Proof.
  intros i m q m' q' x H L W. unfold pexec1, lost_by, writes_of in *. destruct (effect_of i) as [y z|rd lost wr].
  - destruct H as (_ & -> & _). unfold write. destruct (reg_eqb z x) eqn:E; [|reflexivity]. apply reg_eqb_eq in E. cbn in W. tauto.
  - subst lost. destruct H as (v & vs & _ & -> & _). apply pwrites_other. exact W.
Qed.
Lemma pexec_other : forall l m q m' q' x, pexec l m q m' q' -> (forall i, In i l -> lost_by i = false) -> ~ In x (flat_map writes_of l) -> m' x = m x.
Proof.
  induction l as [|i l IH]; intros m q m' q' x H L W; cbn in *; [destruct H as (-> & _); reflexivity|]. destruct H as (m1 & q1 & H1 & H). rewrite in_app_iff in W.
  rewrite (IH _ _ _ _ x H) by auto. apply (pexec1_other _ _ _ _ _ _ H1); auto.
Qed.
End Exec.
