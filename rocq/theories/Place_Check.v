(** C61: a check of the code (bounds for the places), which is enough. *)
Require Import List Bool Arith Lia.
Require Import Verif.RegAlloc_Model Verif.RegAlloc_Spec Verif.RegAlloc_Graph Verif.Clause_Model Verif.Clause_Exec Verif.Place_Spec.
Import ListNotations.

Definition ple (p p' : place) : Prop := match p, p' with Heap, _ => True | Outer, Heap => False | Outer, _ => True | Cur, Cur => True | Cur, _ => False end.
Lemma ple_refl : forall p, ple p p.
Proof. intros []; constructor. Qed.
Lemma ple_trans : forall a b c, ple a b -> ple b c -> ple a c.
Proof. intros [] [] []; cbn; tauto. Qed.
Lemma ple_heap : forall p, ple p Heap -> p = Heap.
Proof. intros []; cbn; tauto. Qed.
Lemma ple_cur : forall p, ple p Cur.
Proof. intros []; constructor. Qed.
Lemma ple_outer : forall p, ple p Outer <-> p <> Cur.
Proof. intros []; cbn; intuition congruence. Qed.
Local Hint Resolve ple_refl ple_cur : core.

Lemma reg_dec : forall a b : reg, {a = b} + {a <> b}.
Proof. decide equality; apply Nat.eq_dec. Defined.

Section Check.
(** the number of permanent variables; bounds for temporaries and permanent variables *)
Variable nby : nat.
Variable B BY : nat -> place.
(** [ab]: bound for the arguments *)
Definition rb (ab : place) (x : reg) : place := match x with A _ => ab | T n => B n end.
(** the permanent variables read and written *)
Definition y_reads (i : inst) : list nat :=
  match i with
  | get_arg (i_get_value y) _ | put_arg (i_put_value y) _ | put_arg (i_put_unsafe_value y) _ | other (i_unify_value_y y) | other (i_unify_local_value_y y) => [y]
  | _ => []
  end.
Definition y_writes (i : inst) : list nat :=
  match i with get_arg (i_get_variable y) _ | put_arg (i_put_variable y) _ | other (i_unify_variable y) => [y] | _ => [] end.
Definition ti1 (ab : place) (i : inst) : Prop :=
  match i with
  | get_variable_x t a => ple (rb ab a) (rb ab t)
  | put_value_x t a => ple (rb ab t) (rb ab a)
  | get_arg (i_get_variable y) x => ple (rb ab x) (BY y)
  | put_arg (i_put_variable y) x => BY y = Cur /\ rb ab x = Cur
  | put_arg (i_put_value y) x => ple (BY y) (rb ab x)
  | put_arg (i_put_unsafe_value y) x => ple Outer (rb ab x)
  | put_meta_term _ x _ => rb ab x = Heap
  | unify_value_x i_unify_value t => rb ab t = Heap
  | other (i_unify_value_y y) => BY y = Heap
  | get_value_x _ _ | get_arg _ _ | put_variable_x _ _ | put_void _ | put_arg _ _ | unify_variable_x _ | unify_value_x i_unify_local_value _ | call _ _ => True
  | call_c _ stop ret _ => stop = false /\ ret = None
  | other (i_unify_variable _) | other (i_unify_local_value_y _) | other (i_unify_void _) | other (i_unify_const _) | other (i_unify_structure _ _) | other (i_allocate _) | other i_deallocate | other i_proceed => True
  | _ => False
  end.
(** [ev]: there is an environment *)
Definition ti_env (ev : bool) (i : inst) : Prop :=
  match i with
  | call (i_call _) _ | other i_deallocate => ev = true
  | call (i_execute _) _ | other i_proceed => ev = false
  | other (i_allocate n) => ev = false /\ n = nby
  | _ => True
  end.
Definition ev_after (ev : bool) (i : inst) : bool := match i with other (i_allocate _) => true | other i_deallocate => false | _ => ev end.
Definition ti (ev : bool) (ab : place) (i : inst) : Prop :=
  ti1 ab i /\ ti_env ev i /\
  (forall y, In y (y_reads i ++ y_writes i) -> ev = true /\ y < nby) /\
  (ev = false -> forall x, In x (reads_of i) -> ple (rb ab x) Outer).
(** [Dy]: the permanent variables which are written *)
Definition y_after (Dy : nat -> Prop) (i : inst) : nat -> Prop :=
  match i with other (i_allocate _) => fun _ => False | _ => fun y => Dy y \/ In y (y_writes i) end.
Fixpoint tc (ev : bool) (ab : place) (Dy : nat -> Prop) (l : list inst) : Prop :=
  match l with
  | [] => True
  | i :: l => exists ab0, ple ab ab0 /\ ti ev ab0 i /\ (forall y, In y (y_reads i) -> Dy y) /\
    exists ab', (lost_by i = false -> ple ab0 ab') /\ tc (ev_after ev i) ab' (y_after Dy i) l
  end.
Lemma tc_weak : forall ev ab ab' Dy l, ple ab ab' -> tc ev ab' Dy l -> tc ev ab Dy l.
Proof. intros ev ab ab' Dy [|i l] L H; [exact H|]. destruct H as (ab0 & L0 & H). exists ab0. split; [apply (ple_trans _ _ _ L L0)|exact H]. Qed.
Definition yinv (ev : bool) (Dy : nat -> Prop) (q : penv) : Prop :=
  match q with
  | Some (n, f) => ev = true /\ n = nby /\ (forall y, y < nby -> Dy y -> exists p, f y = Some p /\ ple p (BY y)) /\ (forall y, f y = Some Cur -> y < nby -> BY y = Cur)
  | None => ev = false
  end.
Lemma yinv_bind : forall ev Dy q q', yinv ev Dy q -> bindings q q' -> yinv ev Dy q'.
Proof.
  intros ev Dy [(n, f)|] [(n', f')|] H Bd; cbn in *; try contradiction; [|exact H]. destruct H as (H1 & H2 & H3 & H4), Bd as (-> & Bd). split; [exact H1|]. split; [exact H2|]. split.
  - intros y L D. destruct (Bd y) as [E|(E & N)]; [rewrite E; auto|]. rewrite (H4 y E L). destruct (f' y) as [p|]; [|congruence]. eauto.
  - intros y E L. destruct (Bd y) as [Q|(Q & N)]; [apply H4; congruence|auto].
Qed.
Lemma yinv_py : forall ev Dy q y, yinv ev Dy q -> ev = true -> y < nby -> Dy y -> exists p, py q y = Some p /\ ple p (BY y).
Proof. intros ev Dy [(n, f)|] y H -> L D; unfold yinv, py in *; [|discriminate H]. destruct H as (_ & -> & H & _). destruct (Nat.ltb_spec y nby); [apply (H y L D)|lia]. Qed.
Lemma yinv_in : forall ev Dy q y, yinv ev Dy q -> ev = true -> y < nby -> in_env q y.
Proof. intros ev Dy [(n, f)|] y H -> L; cbn in *; [lia|discriminate H]. Qed.
Lemma yinv_none : forall ev Dy q, yinv ev Dy q -> (q = None <-> ev = false).
Proof. intros ev Dy [(n, f)|] H; cbn in H; [destruct H as (-> & _); split; discriminate|tauto]. Qed.
Lemma yinv_set : forall ev Dy q y p, yinv ev Dy q -> ple p (BY y) -> yinv ev (fun z => Dy z \/ In z [y]) (set_py q y p).
Proof.
  intros ev Dy [(n, f)|] y p H L; cbn in *; [|exact H]. destruct H as (H1 & H2 & H3 & H4). split; [exact H1|]. split; [exact H2|]. split.
  - intros z Lz D. destruct (Nat.eqb_spec z y) as [->|N]; [eauto|]. destruct D as [D|[D|[]]]; [auto|congruence].
  - intros z E Lz. destruct (Nat.eqb_spec z y) as [EQ|N]; [|auto]. rewrite EQ. injection E as EP. rewrite EP in L. destruct (BY y); [destruct L|destruct L|reflexivity].
Qed.
Lemma yinv_mono : forall ev (Dy Dy' : nat -> Prop) q, yinv ev Dy q -> (forall y, Dy' y -> Dy y) -> yinv ev Dy' q.
Proof. intros ev Dy Dy' [(n, f)|] H E; cbn in *; [|exact H]. destruct H as (H1 & H2 & H3 & H4). split; [exact H1|]. split; [exact H2|]. split; [|exact H4]. intros y Ly D. apply H3; auto. Qed.
(** ** An event *)
Lemma ok_event : forall ev ab (Dy : nat -> Prop) i q m, ti ev ab i -> (forall y, In y (y_reads i) -> Dy y) -> yinv ev Dy q -> (forall x, In x (reads_of i) -> ple (m x) (rb ab x)) ->
  ~ danger (label_of i) (map m (reads_of i)) q.
Proof.
  intros ev ab Dy i q m (T1 & T2 & T3 & T4) HD HQ HM [(-> & Q)|Q].
  - apply in_map_iff in Q. destruct Q as (x & E & Hx). specialize (HM x Hx). rewrite E in HM. specialize (T4 (proj1 (yinv_none _ _ _ HQ) eq_refl) x Hx). destruct (rb ab x); contradiction.
  - assert (RD : forall y, In y (y_reads i) -> exists p, py q y = Some p /\ ple p (BY y)) by (intros y Hy; destruct (T3 y (in_or_app _ _ _ (or_introl Hy))); apply (yinv_py ev Dy); auto).
    assert (WR : forall y, In y (y_writes i) -> in_env q y) by (intros y Hy; destruct (T3 y (in_or_app _ _ _ (or_intror Hy))); apply (yinv_in ev Dy); auto).
    assert (NN := yinv_none _ _ _ HQ).
    assert (HH : forall x, rb ab x = Heap -> In x (reads_of i) -> m x = Heap) by (intros x E Hx; specialize (HM x Hx); rewrite E in HM; apply ple_heap; exact HM).
    destruct i as [?|?|k ?|?|?|?|k ?|k ?|k ?|?|k ?|k ?|?|k ?|k ?|k]; cbn [label_of] in Q; try contradiction.
    + destruct k; try contradiction; [apply Q; apply WR; left; reflexivity|destruct (RD y (or_introl eq_refl)) as (p & E & _); congruence].
    + destruct k; try contradiction; [apply Q; apply WR; left; reflexivity| |]; destruct (RD y (or_introl eq_refl)) as (p & E & _); congruence.
    + destruct Q as (x & Hx & N). cbn in Hx, T1. destruct Hx as [<-|[]]. apply N. apply HH; [exact T1|left; reflexivity].
    + destruct k; try contradiction. destruct Q as (x & Hx & N). cbn in Hx, T1. destruct Hx as [<-|[]]. apply N. apply HH; [exact T1|left; reflexivity].
    + cbn in T2. destruct k; try contradiction; [apply NN in Q; congruence|apply Q; apply NN; exact T2].
    + cbn in T2. destruct k; try contradiction.
      * apply Q. apply WR. left. reflexivity.
      * destruct (RD y (or_introl eq_refl)) as (p & E & L). cbn in T1. rewrite T1 in L. apply ple_heap in L. congruence.
      * destruct (RD y (or_introl eq_refl)) as (p & E & L). congruence.
      * apply Q. apply NN. apply T2.
      * apply NN in Q. congruence.
      * apply Q. apply NN. exact T2.
Qed.
Lemma ok_follow : forall ev ab (Dy : nat -> Prop) i q q' m v, ti ev ab i -> (forall y, In y (y_reads i) -> Dy y) -> yinv ev Dy q -> (forall x, In x (reads_of i) -> ple (m x) (rb ab x)) ->
  follow (label_of i) (map m (reads_of i)) v q q' -> (forall x y, effect_of i <> Copy x y) ->
  yinv (ev_after ev i) (y_after Dy i) q' /\ forall x, In x (writes_of i) -> ple v (rb ab x).
Proof.
  intros ev ab Dy i q q' m v (T1 & T2 & T3 & T4) HD HQ HM (q1 & HC & HB) NC.
  enough (QQ : yinv (ev_after ev i) (y_after Dy i) q1 /\ forall x, In x (writes_of i) -> ple v (rb ab x)) by (destruct QQ as (Q1 & Q2); split; [apply (yinv_bind _ _ _ _ Q1 HB)|exact Q2]).
  assert (SAME : q1 = q -> yinv ev (fun y => Dy y \/ In y []) q1) by (intros ->; apply (yinv_mono _ _ _ _ HQ); intros y [Q|[]]; exact Q).
  assert (RD : forall y, In y (y_reads i) -> exists p, py q y = Some p /\ ple p (BY y)) by (intros y Hy; destruct (T3 y (in_or_app _ _ _ (or_introl Hy))); apply (yinv_py ev Dy); auto).
  destruct i as [tmp arg|tmp arg|k r0|tmp arg|r0|tmp arg|k r0|k r1 r0|k r0 tmp|tmp|k tmp|k n|tmp|k tmp|k stop ret l|k]; cbn [label_of change] in HC; try (destruct T1; fail); try (exfalso; apply (NC _ _ eq_refl)).
  - split; [apply SAME; exact HC|intros x []].
  - destruct k; try (split; [apply SAME; exact HC|intros x []]). destruct HC as (x & E & ->). cbn in E. injection E as <-. split; [|intros x []]. apply (yinv_set ev Dy q y). + exact HQ. + apply (ple_trans _ (rb ab r0)); [apply HM; left; reflexivity|exact T1].
  - destruct HC as (-> & HC). split; [apply SAME; exact HC|]. intros x _. exact Logic.I.
  - destruct HC as (-> & HC). split; [apply SAME; exact HC|]. intros x _. exact Logic.I.
  - destruct k; try (destruct HC as (-> & HC); split; [apply SAME; exact HC|intros x _; exact Logic.I]).
    + destruct HC as (-> & ->). cbn in T1. destruct T1 as (T1 & T1'). split; [apply (yinv_set ev Dy q y); [exact HQ|rewrite T1; auto]|]. intros x [<-|[]]. cbn [fst]. rewrite T1'. auto.
    + destruct HC as (E & HC). destruct (RD y (or_introl eq_refl)) as (p & E' & L). split; [apply SAME; exact HC|]. intros x [<-|[]]. cbn [fst]. assert (p = v) by congruence. subst p. apply (ple_trans _ _ _ L T1).
    + destruct HC as (N & HC). split; [apply SAME; exact HC|]. intros x [<-|[]]. cbn [fst]. apply (ple_trans _ Outer); [apply ple_outer; exact N|exact T1].
  - destruct HC as (-> & HC). split; [apply SAME; exact HC|]. intros x _. exact Logic.I.
  - destruct HC as (-> & HC). split; [apply SAME; exact HC|]. intros x _. exact Logic.I.
  - split; [apply SAME; destruct k; exact HC|intros x []].
  - split; [apply SAME; destruct k; exact HC|intros x []].
  - split; [apply SAME; exact HC|]. cbn in T1. destruct T1 as (_ & ->). intros x [].
  - cbn in T2. destruct k; cbn in T1; try contradiction; try (split; [apply SAME; exact HC|intros x []]); (split; [|intros x []]).
    + subst q1. apply (yinv_set ev Dy q y); [exact HQ|]. destruct (BY y); exact Logic.I.
    + subst q1. cbn. destruct T2 as (-> & ->). split; [reflexivity|]. split; [reflexivity|]. split; [|discriminate]. intros y L [].
    + subst q1. reflexivity.
Qed.
Lemma writes_other : forall l (m : reg -> place) x, ~ In x (map fst l) -> writes place m l x = m x.
Proof.
  induction l as [|(y, v) l IH]; intros m x H; cbn in *; [reflexivity|]. rewrite IH by tauto. unfold write. destruct (reg_eqb y x) eqn:E; [|reflexivity]. apply reg_eqb_eq in E. tauto.
Qed.
Lemma writes_same : forall l (m : reg -> place) x v, (forall p, In p l -> snd p = v) -> In x (map fst l) -> writes place m l x = v.
Proof.
  induction l as [|(y, u) l IH]; intros m x v H Hx; cbn in *; [contradiction|]. destruct (in_dec reg_dec x (map fst l)) as [Q|Q]; [apply IH; auto|].
  rewrite writes_other by exact Q. destruct Hx as [->|Hx]; [|contradiction]. unfold write. destruct (reg_eqb_spec x x); [|congruence]. apply (H (x, u)). auto.
Qed.
Lemma lost_writes : forall ev ab i, ti ev ab i -> lost_by i = true -> writes_of i = [].
Proof. intros ev ab i (T1 & _) L. destruct i; cbn in L, T1; try discriminate L; [reflexivity|]. destruct T1 as (-> & _). discriminate L. Qed.
(** ** A run *)
Lemma ok_run : forall result rest l ev ab (Dy : nat -> Prop) (D : reg -> Prop) m tr, tc ev ab Dy l -> fwd D l -> (forall q, follows result tr q -> yinv ev Dy q) ->
  ((exists q, follows result tr q) -> forall x, D x -> ple (m x) (rb ab x)) -> safe result tr -> safe result (snd (run place result rest l (m, tr))).
Proof.
  intros result rest. induction l as [|i l IH]; intros ev ab Dy D m tr TC F HQ HM HS; [exact HS|].
  cbn in TC, F. destruct TC as (ab0 & L0 & T0 & TD & ab' & LA & TC), F as (F1 & F2). cbn [run].
  assert (HM' : (exists q, follows result tr q) -> forall x, D x -> ple (m x) (rb ab0 x)) by (intros EX x Hx; apply (ple_trans _ (rb ab x)); [apply (HM EX x Hx)|destruct x; cbn; auto]).
  clear HM L0 ab. rename ab0 into ab, HM' into HM.
  assert (MR : (exists q, follows result tr q) -> forall x, In x (reads_of i) -> ple (m x) (rb ab x)) by auto.
  assert (MB : forall x, lost_by i = false -> ple (rb ab x) (rb ab' x)) by (intros [a|n] Q; cbn; auto).
  unfold step. destruct (effect_of i) as [x y|rd lost wr] eqn:EE.
  - apply (IH _ _ _ _ _ _ TC F2); auto.
    + intros q Hq. specialize (HQ q Hq). destruct i; cbn in EE; try discriminate EE; cbn; apply (yinv_mono _ _ _ _ HQ); cbn; tauto.
    + assert (LS : lost_by i = false) by (unfold lost_by; rewrite EE; reflexivity). intros EX z Hz. apply (ple_trans _ (rb ab z)); [|apply MB; exact LS]. unfold write. destruct (reg_eqb y z) eqn:Ez.
      * apply reg_eqb_eq in Ez. subst z. apply (ple_trans _ (rb ab x)); [apply (MR EX); unfold reads_of; rewrite EE; left; reflexivity|]. destruct T0 as (T1 & _). destruct i; cbn in EE; try discriminate EE; injection EE as <- <-; exact T1.
      * destruct Hz as [(_ & Hz)|Hz]; [auto|]. unfold writes_of in Hz. rewrite EE in Hz. destruct Hz as [<-|[]]. destruct (reg_eqb_spec y y); congruence.
  - assert (RE : reads_of i = rd) by (unfold reads_of; rewrite EE; reflexivity). assert (WE : writes_of i = map fst wr) by (unfold writes_of; rewrite EE; reflexivity). assert (LE : lost_by i = lost) by (unfold lost_by; rewrite EE; reflexivity).
    set (tr1 := (label_of i, map m rd) :: tr).
    assert (NC : forall x y, effect_of i <> Copy x y) by (intros x y; rewrite EE; discriminate).
    assert (FO : forall q', follows result tr1 q' -> yinv (ev_after ev i) (y_after Dy i) q' /\ forall x, In x (writes_of i) -> ple (result tr1 0) (rb ab x)).
    { intros q' (q & Hq & Hf). change (follow (label_of i) (map m rd) (result tr1 0) q q') in Hf. rewrite <- RE in Hf. apply (ok_follow ev ab Dy i q q' m (result tr1 0) T0 TD (HQ q Hq) (MR (ex_intro _ q Hq)) Hf NC). }
    apply (IH _ _ _ _ _ _ TC F2).
    + intros q' Hq. apply (FO q' Hq).
    + intros (q' & Hq') x Hx. destruct (FO q' Hq') as (_ & WV). assert (EX : exists q, follows result tr q) by (destruct Hq' as (q & Hq & _); eauto).
      destruct lost; [rewrite (lost_writes _ _ _ T0 LE), LE in Hx; destruct Hx as [(Hx & _)|[]]; discriminate Hx|].
      apply (ple_trans _ (rb ab x)); [|auto]. set (w := map (fun p => (fst p, result tr1 (snd p))) wr). assert (W1 : map fst w = map fst wr) by (unfold w; rewrite map_map; reflexivity).
      destruct (in_dec reg_dec x (map fst w)) as [Q|Q].
      * rewrite (writes_same w m x (result tr1 0)); [|intros p Hp|exact Q]. -- apply WV. rewrite WE, <- W1. exact Q. -- unfold w in Hp. apply in_map_iff in Hp. destruct Hp as (p0 & <- & Hp). cbn. rewrite (wr0 _ _ _ _ EE p0 Hp). reflexivity.
      * rewrite writes_other by exact Q. destruct Hx as [(_ & Hx)|Hx]; [auto|]. rewrite WE, <- W1 in Hx. contradiction.
    + intros l1 e l2 q E Hq. destruct l1 as [|e1 l1]; cbn in E; unfold tr1 in E.
      * injection E as <- <-. cbn [fst snd]. rewrite <- RE. apply (ok_event ev ab Dy i q m T0 TD (HQ q Hq) (MR (ex_intro _ q Hq))).
      * injection E as <- E. apply (HS _ _ _ _ E Hq).
Qed.
(** the code is safe when it can be checked *)
Lemma tc_safe : forall n l (D : reg -> Prop), tc false Outer (fun _ => False) l -> fwd D l -> (forall x, D x -> exists a, x = A a /\ a < n) -> safe_code n l.
Proof.
  intros n l D TC F HD result rest m HA. apply (ok_run result rest l false Outer (fun _ => False) D m []); auto.
  - intros q ->. reflexivity.
  - intros _ x Hx. destruct (HD x Hx) as (a & -> & L). apply ple_outer. apply HA. exact L.
  - intros l1 e l2 q E. destruct l1; discriminate E.
Qed.
End Check.
