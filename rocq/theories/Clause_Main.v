(** C60: the code of the body and of the clause. *)
Require Import List Bool Arith Lia Permutation.
Require Import Verif.RegAlloc_Model Verif.RegAlloc_Spec Verif.RegAlloc_Graph Verif.Clause_Model Verif.Clause_Spec Verif.Clause_Exec Verif.Clause_Shape Verif.Clause_Sound Verif.Clause_Complete Verif.Clause_Class Verif.Clause_Body.
Import ListNotations.

Lemma nodup_app_intro : forall (l1 l2 : list nat), NoDup l1 -> NoDup l2 -> (forall x, In x l1 -> In x l2 -> False) -> NoDup (l1 ++ l2).
Proof.
  induction l1 as [|a l1 IH]; intros l2 N1 N2 H; [exact N2|]. inversion N1; subst. cbn. constructor.
  - rewrite in_app_iff. intros [Q|Q]; [contradiction|]. apply (H a); [left; reflexivity|exact Q].
  - apply IH; auto. intros x Q1 Q2. apply (H x); [right; exact Q1|exact Q2].
Qed.
(** * Arguments which are written are read later *)
Fixpoint gargs (l : list inst) : Prop := match l with [] => True | i :: l => (forall a, In (A a) (writes_of i) -> needed (A a) l) /\ gargs l end.
Lemma gargs_split : forall l, gargs l -> forall l1 i l2, l = l1 ++ i :: l2 -> forall a, In (A a) (writes_of i) -> needed (A a) l2.
Proof.
  intros l H l1. revert l H. induction l1 as [|j l1 IH]; intros l H i l2 E a Ha; subst l; cbn in H; destruct H as (H1 & H2); [auto|]. apply (IH _ H2 _ _ eq_refl _ Ha).
Qed.
Lemma needed_app : forall x l1 l2, ~ In x (flat_map writes_of l1) -> needed x l2 -> needed x (l1 ++ l2).
Proof. intros x. induction l1 as [|i l1 IH]; intros l2 H1 H2; cbn in *; [exact H2|]. rewrite in_app_iff in H1. right. split; [tauto|]. apply IH; tauto. Qed.
Lemma aw_nodup : forall i l, NoDup (aw (i :: l)) -> NoDup (aw l) /\ forall a, In (A a) (writes_of i) -> ~ In a (aw l).
Proof.
  intros i l N. rewrite aw_cons in N. apply (nodup_app unit (fun _ _ => tt) 0) in N. destruct N as (_ & N1 & N2). split; [exact N1|]. intros a Ha Q. apply (N2 a); [|exact Q]. apply in_flat_map. exists (A a). cbn. auto.
Qed.
Lemma gargs_app : forall l1 l2, NoDup (aw l1) -> (forall a, In a (aw l1) -> needed (A a) l2) -> gargs l2 -> gargs (l1 ++ l2).
Proof.
  induction l1 as [|i l1 IH]; intros l2 N H G; [exact G|]. destruct (aw_nodup _ _ N) as (N1 & N2). cbn [app gargs]. split.
  - intros a Ha. apply needed_app; [intros Q; apply (N2 a Ha); apply aw_in; exact Q|]. apply H. rewrite aw_cons. apply in_app_iff. left. apply in_flat_map. exists (A a). cbn. auto.
  - apply IH; auto. intros a Ha. apply H. rewrite aw_cons. apply in_app_iff. auto.
Qed.

Section Main.
Variable fl : flags.
Variable kd : nat -> kind.
Variable N0 : nat.
Hypothesis kd_inj : forall n n' y, n < N0 -> n' < N0 -> kd n = KY y -> kd n' = KY y -> n = n'.
Notation shape := (shape kd N0).
Notation KV := (KV kd N0).
Notation args_code := (args_code fl kd).

(** * The code of a goal *)
Definition goal_inst (g : goal) (rd : list reg) : inst := if g_inl g then call_c (i_call_c (g_pred g)) false None (map CX rd) else call (i_call (g_pred g)) (length (g_args g)).
Definition last_code (no : nat) (g : goal) (rd : list reg) : list inst :=
  if g_inl g then goal_inst g rd :: end_code no true ++ [other i_proceed] else end_code no true ++ [call (i_execute (g_pred g)) (length (g_args g))].
Lemma body_inv : forall lp nb no g l s c, generate_body fl kd lp nb ((no, g) :: l) s = Some c ->
  exists c1 rd s1 tl, args_code (lp || (no =? nb)) g s c1 rd s1 /\ c = c1 ++ tl /\
    ((l = [] /\ tl = last_code no g rd) \/ (l <> [] /\ exists c3, generate_body fl kd (lp || (no =? nb)) nb l s1 = Some c3 /\ tl = goal_inst g rd :: c3)).
Proof.
  intros lp nb no g l s c E. cbn [generate_body] in E. unfold Clause_Body.args_code, last_code, goal_inst. destruct (g_inl g).
  - destruct (load_by_reg_arg_lst fl kd (lp || (no =? nb)) (g_args g) s) as [((c1, lx), s1)|] eqn:E1; [|discriminate E]. exists c1, (map T lx), s1. rewrite map_map. destruct l as [|p l].
    + injection E as <-. eexists. split; [eauto|]. split; [reflexivity|]. left. auto.
    + destruct (generate_body fl kd (lp || (no =? nb)) nb (p :: l) s1) as [c3|] eqn:E3; [|discriminate E]. injection E as <-. eexists. split; [eauto|]. split; [reflexivity|]. right. split; [discriminate|]. eauto.
  - destruct (gen_lst (load_arg fl kd (lp || (no =? nb))) (reorder_body_arg_lst fl kd (arg_regs (g_args g))) s) as [(c1, s1)|] eqn:E1; [|discriminate E]. exists c1, (map A (seq 0 (length (g_args g)))), s1. destruct l as [|p l].
    + injection E as <-. eexists. split; [eauto|]. split; [reflexivity|]. left. auto.
    + destruct (generate_body fl kd (lp || (no =? nb)) nb (p :: l) s1) as [c3|] eqn:E3; [|discriminate E]. injection E as <-. eexists. split; [eauto|]. split; [reflexivity|]. right. split; [discriminate|]. eauto.
Qed.
Lemma body_total : forall l lp nb s, generate_body fl kd lp nb l s <> None.
Proof.
  assert (HB : forall lp l s, load_by_reg_arg_lst fl kd lp l s <> None).
  { intros lp. induction l as [|t l IH]; intros s; cbn [load_by_reg_arg_lst]; [discriminate|]. destruct (new_reg s) as (x, s0). unfold load_arg. pose proof (gen_load_total fl kd lp (depth t) t (T x) s0 (le_n _)) as Q. destruct (gen_load fl kd lp (depth t) t (T x) s0) as [(c1, s1)|]; [|congruence].
    specialize (IH s1). destruct (load_by_reg_arg_lst fl kd lp l s1) as [((c2, lx), s2)|]; [discriminate|congruence]. }
  induction l as [|(no, g) l IH]; intros lp nb s; cbn [generate_body]; [discriminate|]. destruct (g_inl g).
  - specialize (HB (lp || (no =? nb)) (g_args g) s). destruct (load_by_reg_arg_lst fl kd (lp || (no =? nb)) (g_args g) s) as [((c1, lx), s1)|]; [|congruence]. destruct l; [discriminate|]. specialize (IH (lp || (no =? nb)) nb s1). destruct (generate_body fl kd (lp || (no =? nb)) nb (p :: l) s1); [discriminate|congruence].
  - assert (Q : gen_lst (load_arg fl kd (lp || (no =? nb))) (reorder_body_arg_lst fl kd (arg_regs (g_args g))) s <> None) by (apply gen_lst_total; intros p _ s1; apply gen_load_total; apply le_n).
    destruct (gen_lst (load_arg fl kd (lp || (no =? nb))) (reorder_body_arg_lst fl kd (arg_regs (g_args g))) s) as [(c1, s1)|]; [|congruence]. destruct l; [discriminate|]. specialize (IH (lp || (no =? nb)) nb s1). destruct (generate_body fl kd (lp || (no =? nb)) nb (p :: l) s1); [discriminate|congruence].
Qed.
(** the variables which are known *)
Definition wk (W : list nat) (s : st) : Prop := forall n, n < N0 -> (known s n <-> In n W /\ kd n <> KVoid).
Lemma wk_KV : forall W s, wk W s -> KV s.
Proof. intros W s H n K EK. destruct (le_lt_dec N0 n) as [Q|Q]; [exact Q|]. apply (H n Q) in K. tauto. Qed.
Lemma wk_step : forall W Vs s s1 c, wk W s -> wfs N0 s -> shape [] Vs s s1 c -> wk (W ++ Vs) s1.
Proof.
  intros W Vs s s1 c H (W1 & _) Sh n Hn. rewrite in_app_iff. split.
  - intros K. destruct (sh_new _ _ _ _ _ _ _ Sh n K) as [Q|[(_ & Q)|[[]|Q]]]; [apply (H n Hn) in Q; tauto|tauto|lia].
  - intros ([Q|Q] & NV); [|apply (sh_vars _ _ _ _ _ _ _ Sh n Q NV)]. apply (known_mono _ _ _ _ _ _ _ _ Sh). apply (H n Hn). auto.
Qed.
Lemma wk_lp : forall W s lp (v : list nat), wk W s -> lvl N0 v -> (lp = true -> forall n y, In n v -> kd n = KY y -> In n W) -> lp_ok kd lp s v.
Proof. intros W s lp v H HV HL Q n y Hn EK. apply (H n (HV n Hn)). split; [apply (HL Q n y Hn EK)|congruence]. Qed.

(** * The code *)
Definition copies_ok (l : list inst) : Prop := forall i x y, In i l -> effect_of i = Copy x y -> x <> y.
Definition lost_ok (l : list inst) : Prop := forall i, In i l -> lost_by i = true -> writes_of i = [].
Lemma copies_app : forall l1 l2, copies_ok l1 -> copies_ok l2 -> copies_ok (l1 ++ l2).
Proof. intros l1 l2 H1 H2 i x y Hi. apply in_app_iff in Hi. destruct Hi; eauto. Qed.
Lemma lost_app : forall l1 l2, lost_ok l1 -> lost_ok l2 -> lost_ok (l1 ++ l2).
Proof. intros l1 l2 H1 H2 i Hi. apply in_app_iff in Hi. destruct Hi; eauto. Qed.
Lemma lost_shape : forall X Vs s s' l, shape X Vs s s' l -> lost_ok l.
Proof. intros X Vs s s' l Sh i Hi Q. rewrite (sh_lost _ _ _ _ _ _ _ Sh i Hi) in Q. discriminate Q. Qed.
Definition calls (l : list inst) : Prop := tw l = [] /\ aw l = [] /\ copies_ok l /\ lost_ok l.
Lemma calls_goal : forall g rd, calls [goal_inst g rd].
Proof. intros g rd. unfold goal_inst. destruct (g_inl g); (split; [reflexivity|]; split; [reflexivity|]; split; [intros i x y [<-|[]] Q; discriminate Q|intros i [<-|[]] _; reflexivity]). Qed.
Lemma calls_last : forall no g rd, calls (last_code no g rd).
Proof.
  intros no g rd. unfold last_code, goal_inst, end_code. destruct (g_inl g), (1 <? no); (split; [reflexivity|]; split; [reflexivity|]; split).
  all: try (intros i x y Hi Q; cbn in Hi; repeat (destruct Hi as [<-|Hi]; [discriminate Q|]); contradiction).
  all: intros i Hi _; cbn in Hi; repeat (destruct Hi as [<-|Hi]; [reflexivity|]); contradiction.
Qed.
Lemma gargs_calls : forall l1 l2, aw l1 = [] -> gargs l2 -> gargs (l1 ++ l2).
Proof. intros l1 l2 E G. apply gargs_app; [rewrite E; constructor|rewrite E; intros a []|exact G]. Qed.
Lemma body_syn : forall l lp nb s c W, generate_body fl kd lp nb l s = Some c -> bodyok kd W lp nb l -> wk W s -> wfs N0 s -> lvl N0 (bvars l) ->
  NoDup (tw c) /\ (forall n, In n (tw c) -> (n < N0 /\ kd n = KX /\ ~ known s n) \/ nxt s <= n) /\ gargs c /\ copies_ok c /\ lost_ok c.
Proof.
  induction l as [|(no, g) l IH]; intros lp nb s c W E BO HW WF HN.
  - cbn in E. injection E as <-. split; [constructor|]. split; [intros n []|]. split; [split; [intros a []|constructor]|]. split; [intros i x y [<-|[]] Q; discriminate Q|intros i [<-|[]] _; reflexivity].
  - destruct (body_inv _ _ _ _ _ _ _ E) as (c1 & rd & s1 & tl & AC & -> & TL). cbn [bodyok] in BO. destruct BO as (B1 & B2 & B3 & B4 & B5).
    change (bvars ((no, g) :: l)) with (lvars (g_args g) ++ bvars l) in HN. apply lvl_app in HN. destruct HN as (N1 & N2).
    destruct (args_shape fl kd N0 kd_inj _ _ _ _ _ _ AC WF N1 (wk_lp _ _ _ _ HW N1 B1) (wk_KV _ _ HW)) as (S1 & A1 & A2). pose proof (sh_nxt _ _ _ _ _ _ _ S1) as L1.
    assert (RD : forall k r a, In a (aw c1) -> needed (A a) (call k (length (g_args g)) :: r)) by (intros k r a Ha; left; cbn; apply in_map; apply in_seq; destruct (A2 a Ha); lia).
    destruct TL as [(-> & ->)|(NE & c3 & E3 & ->)].
    + destruct (calls_last no g rd) as (C1 & C2 & C3 & C4). rewrite tw_app, C1, app_nil_r. split; [apply (sh_nd _ _ _ _ _ _ _ S1)|]. split; [|split; [|split]].
      * intros n Hn. destruct (sh_tw _ _ _ _ _ _ _ S1 n Hn) as [[]|[Q|Q]]; [left; tauto|right; lia].
      * apply gargs_app; auto.
        -- intros a Ha. destruct (A2 a Ha) as (Q & _). unfold last_code. rewrite Q. unfold end_code. destruct (1 <? no); [|apply RD; exact Ha]. right. split; [intros []|]. apply RD. exact Ha.
        -- rewrite <- (app_nil_r (last_code no g rd)). apply gargs_calls; [exact C2|constructor].
      * apply copies_app; [intros i x y; apply (sh_copy _ _ _ _ _ _ _ S1)|exact C3].
      * apply lost_app; [apply (lost_shape _ _ _ _ _ S1)|exact C4].
    + destruct (calls_goal g rd) as (C1 & C2 & C3 & C4). change (goal_inst g rd :: c3) with ([goal_inst g rd] ++ c3).
      assert (W1 : wfs N0 s1) by (apply (shape_wfs _ _ _ _ _ _ _ S1 WF); intros ? []).
      destruct (IH _ _ _ _ _ E3 B5 (wk_step _ _ _ _ _ HW WF S1) W1 N2) as (I1 & I2 & I3 & I4 & I5). rewrite !tw_app, C1. cbn [app]. split; [|split; [|split; [|split]]].
      * apply nodup_app_intro; [apply (sh_nd _ _ _ _ _ _ _ S1)|exact I1|]. intros n Q1 Q2. specialize (I2 n Q2). destruct WF as (WF1 & WF2). destruct (sh_tw _ _ _ _ _ _ _ S1 n Q1) as [[]|[(Q3 & Q4 & Q5 & Q6)|Q3]].
        -- destruct I2 as [(_ & _ & I2)|I2]; [|lia]. apply I2. apply (sh_vars _ _ _ _ _ _ _ S1 n Q6). congruence.
        -- lia.
      * intros n Hn. apply in_app_iff in Hn. destruct Hn as [Hn|Hn].
        -- destruct (sh_tw _ _ _ _ _ _ _ S1 n Hn) as [[]|[Q|Q]]; [left; tauto|right; lia].
        -- destruct (I2 n Hn) as [(Q1 & Q2 & Q3)|Q]; [|right; lia]. left. split; [exact Q1|]. split; [exact Q2|]. intros Q. apply Q3. apply (known_mono _ _ _ _ _ _ _ _ S1 Q).
      * apply gargs_app; [exact A1| |apply (gargs_calls [goal_inst g rd] c3); [exact C2|exact I3]]. intros a Ha. destruct (A2 a Ha) as (Q & _). unfold goal_inst. rewrite Q. apply RD. exact Ha.
      * apply copies_app; [intros i x y; apply (sh_copy _ _ _ _ _ _ _ S1)|apply (copies_app [goal_inst g rd] c3); assumption].
      * apply lost_app; [apply (lost_shape _ _ _ _ _ S1)|apply (lost_app [goal_inst g rd] c3); assumption].
Qed.

Section Vals.
Variable V : Type.
Variable cst : const -> V.
Variable fn : nat -> list V -> V.
Notation eval := (eval V cst fn).
Notation goal_value := (goal_value V cst fn).
Notation me := (me V).
Notation ms := (ms V).
Notation mg := (mg V).
Notation Mach := (Mach V).
Notation envok := (envok V kd N0).
Notation agree := (agree V kd N0).
Notation pagree := (pagree V kd N0).
Notation exec := (exec V cst fn).
Notation pexec := (pexec V cst fn).
Notation kind_env := (kind_env V).
Lemma x_args_CX : forall rd, x_args (map CX rd) = rd.
Proof. induction rd as [|x rd IH]; cbn; [reflexivity|]. f_equal. exact IH. Qed.
Lemma goal_values : forall e e' l, (forall n, In n (bvars l) -> e n = e' n) -> map (goal_value e) (map snd l) = map (goal_value e') (map snd l).
Proof.
  intros e e' l H. apply map_ext_in. intros g Hg. apply in_map_iff in Hg. destruct Hg as (p & <- & Hp). unfold Clause_Spec.goal_value. f_equal. apply map_ext_in. intros t Ht. apply eval_ext. intros n Hn. apply H. unfold bvars. apply in_flat_map. exists p. split; [exact Hp|]. apply (lvars_in _ t n Ht Hn).
Qed.
Definition rd_ok (g : goal) (rd : list reg) : Prop := g_inl g = false -> rd = map A (seq 0 (length (g_args g))).
Lemma args_rd : forall lp g s c1 rd s1, args_code lp g s c1 rd s1 -> rd_ok g rd.
Proof. intros lp g s c1 rd s1 H Q. unfold Clause_Body.args_code in H. rewrite Q in H. apply H. Qed.
Lemma goal_exec : forall g rd m q m' q', rd_ok g rd -> exec [goal_inst g rd] m q m' q' -> q' = Mach (me q) [] (mg q ++ [(g_inl g, g_pred g, map m rd)]) /\ (g_inl g = true -> m' = m) /\ me q <> Left V.
Proof.
  intros g rd m q m' q' RD (m1 & q1 & H & -> & ->). unfold goal_inst in H. unfold exec1 in H. destruct (g_inl g) eqn:EG; cbn [effect_of] in H; destruct H as (v & o & -> & NL & H); cbn in H.
  - destruct H as (_ & ->). rewrite x_args_CX. auto.
  - rewrite (RD EG). destruct H as (_ & _ & ->). split; [reflexivity|]. split; [discriminate|exact NL].
Qed.
Lemma last_exec : forall no g rd m q m' q', rd_ok g rd -> exec (last_code no g rd) m q m' q' -> q' = Mach (Left V) [] (mg q ++ [(g_inl g, g_pred g, map m rd)]).
Proof.
  intros no g rd m q m' q' RD H. unfold last_code in H. destruct (g_inl g) eqn:EG.
  - change (goal_inst g rd :: end_code no true ++ [other i_proceed]) with ([goal_inst g rd] ++ end_code no true ++ [other i_proceed]) in H. apply exec_app in H. destruct H as (m1 & q1 & H1 & H). apply (goal_exec g rd) in H1; [|exact RD]. destruct H1 as (-> & _). rewrite EG in H.
    unfold end_code in H. destruct (1 <? no); cbn [app] in H.
    + destruct H as (m2 & q2 & (v & o & _ & _ & H2) & m3 & q3 & (v3 & o3 & _ & _ & H3) & _ & ->). cbn in H2. destruct H2 as (_ & _ & ->). cbn in H3. destruct H3 as (_ & _ & ->). reflexivity.
    + destruct H as (m3 & q3 & (v3 & o3 & _ & _ & H3) & _ & ->). cbn in H3. destruct H3 as (_ & _ & ->). reflexivity.
  - rewrite (RD EG). unfold end_code in H. destruct (1 <? no); cbn [app] in H.
    + destruct H as (m2 & q2 & (v & o & -> & _ & H2) & m3 & q3 & (v3 & o3 & _ & _ & H3) & _ & ->). cbn in H2. destruct H2 as (_ & _ & ->). cbn in H3. destruct H3 as (_ & _ & ->). reflexivity.
    + destruct H as (m3 & q3 & (v3 & o3 & _ & _ & H3) & _ & ->). cbn in H3. destruct H3 as (_ & _ & ->). reflexivity.
Qed.
Lemma body_sound : forall l lp nb s c W, generate_body fl kd lp nb l s = Some c -> bodyok kd W lp nb l -> wk W s -> wfs N0 s -> lvl N0 (W ++ bvars l) -> NoDup (vo kd (W ++ bvars l)) ->
  forall m q m' q' e, exec c m q m' q' -> ms q = [] -> envok q -> agree (fun n => In n (bvars l)) no_p s e m q ->
  exists e', (forall n, In n W -> e' n = e n) /\ q' = Mach (Left V) [] (mg q ++ map (goal_value e') (map snd l)).
Proof.
  induction l as [|(no, g) l IH]; intros lp nb s c W E BO HW WF HN ND m q m' q' e H MS EO AG.
  - cbn in E. injection E as <-. destruct H as (m1 & q1 & (v & o & _ & _ & H1) & _ & ->). cbn in H1. destruct H1 as (_ & _ & ->). exists e. split; [auto|]. cbn. rewrite app_nil_r. reflexivity.
  - destruct (body_inv _ _ _ _ _ _ _ E) as (c1 & rd & s1 & tl & AC & -> & TL). cbn [bodyok] in BO. destruct BO as (B1 & B2 & B3 & B4 & B5).
    change (bvars ((no, g) :: l)) with (lvars (g_args g) ++ bvars l) in *. pose proof HN as HN'. apply lvl_app in HN. destruct HN as (NW & HN). apply lvl_app in HN. destruct HN as (N1 & N2).
    pose proof (wk_lp _ _ _ _ HW N1 B1) as LP. pose proof (wk_KV _ _ HW) as HK. pose proof (args_rd _ _ _ _ _ _ AC) as RD.
    destruct (args_shape fl kd N0 kd_inj _ _ _ _ _ _ AC WF N1 LP HK) as (S1 & _ & _).
    pose proof ND as ND'. apply vo_split in ND. destruct ND as (D1 & D2 & D3). apply vo_split in D2. destruct D2 as (D4 & D5 & D6).
    apply exec_app in H. destruct H as (m1 & q1 & H1 & H2).
    destruct (args_sound fl kd N0 kd_inj V cst fn _ _ _ _ _ _ AC WF N1 LP HK D4 (fun n => In n (lvars (g_args g) ++ bvars l)) ltac:(intros n Hn _; apply in_app_iff; auto) m q m1 q1 e H1 MS EO AG) as (e1 & C1 & X1 & M1 & G1 & O1 & AG1).
    assert (CW : forall n, In n W -> e1 n = e n).
    { intros n Hn. destruct (C1 n) as [[(Q1 & Q2)|Q]|Q]; [| |exact Q].
      - exfalso. apply Q2. apply (HW n (NW n Hn)). split; [exact Hn|]. apply D3; [exact Hn|apply in_app_iff; auto].
      - specialize (NW n Hn). destruct WF. lia. }
    destruct TL as [(-> & ->)|(NE & c3 & E3 & ->)].
    + apply last_exec in H2; [|exact RD]. exists e1. split; [exact CW|]. rewrite H2, G1, X1. reflexivity.
    + change (goal_inst g rd :: c3) with ([goal_inst g rd] ++ c3) in H2. apply exec_app in H2. destruct H2 as (m2 & q2 & H2 & H3). apply (goal_exec g rd) in H2; [|exact RD]. destruct H2 as (-> & Hm & NL).
      assert (W1 : wfs N0 s1) by (apply (shape_wfs _ _ _ _ _ _ _ S1 WF); intros ? []). pose proof (wk_step _ _ _ _ _ HW WF S1) as HW1.
      destruct (IH _ _ _ _ _ E3 B5 HW1 W1 ltac:(rewrite <- app_assoc; exact HN') ltac:(rewrite <- app_assoc; exact ND') m2 _ m' q' e1 H3) as (e2 & C2 & X2); [reflexivity| | |].
      { destruct O1 as (O1 & O2). split; [exact NL|exact O2]. }
      { destruct AG1 as [G2 G3 G4]. constructor; [|exact G3|intros ? []]. intros n Hn EK K HL. destruct (g_inl g) eqn:EG.
        - rewrite (Hm eq_refl). apply G2; auto. apply in_app_iff. auto.
        - exfalso. apply (B2 eq_refl n EK HL). apply (HW1 n Hn). exact K. }
      exists e2. split; [intros n Hn; rewrite C2 by (apply in_app_iff; auto); apply CW; exact Hn|]. rewrite X2, G1, X1. cbn [mg map snd]. f_equal. rewrite <- app_assoc. f_equal. cbn [app]. f_equal. unfold Clause_Spec.goal_value at 1. f_equal.
      apply map_ext_in. intros t Ht. apply eval_ext. intros n Hn. symmetry. apply C2. apply in_app_iff. right. apply (lvars_in _ t n Ht Hn).
Qed.

(** ** Executions *)
Definition envst (nb : nat) (q : mach V) : Prop := (1 < nb -> exists n, kind_env q = Some (Some n)) /\ (nb <= 1 -> kind_env q = None).
Lemma goal_pexec : forall g rd d q vs, rd_ok g rd -> ms q = [] -> me q <> Left V -> (g_inl g = false -> me q <> NoEnv V) -> map d rd = map Some vs ->
  exists d', pexec [goal_inst g rd] d q d' (Mach (me q) [] (mg q ++ [(g_inl g, g_pred g, vs)])) /\ (g_inl g = true -> d' = d).
Proof.
  intros g rd d q vs RD MS NL NE EV. unfold goal_inst. destruct (g_inl g) eqn:EG.
  - exists d. split; [|auto]. apply pexec_one. exists (cst Cnil), vs. cbn [effect_of]. rewrite x_args_CX. split; [exact EV|]. split; [reflexivity|]. split; [exact NL|]. cbn. auto.
  - eexists. split; [|discriminate]. apply pexec_one. exists (cst Cnil), vs. cbn [effect_of]. rewrite <- (RD EG). split; [exact EV|]. split; [reflexivity|]. split; [exact NL|]. cbn. auto.
Qed.
Lemma kind_none : forall q, kind_env q = None -> me q = NoEnv V.
Proof. intros q. unfold Clause_Body.kind_env. destruct (me q); congruence. Qed.
Lemma kind_some : forall q n, kind_env q = Some (Some n) -> me q <> NoEnv V /\ me q <> Left V.
Proof. intros q n. unfold Clause_Body.kind_env. destruct (me q); split; congruence. Qed.
Lemma end_pexec : forall nb d q, envst nb q -> ms q = [] -> pexec (end_code nb true) d q d (Mach (NoEnv V) [] (mg q)).
Proof.
  intros nb d q (E1 & E2) MS. unfold end_code. destruct (Nat.ltb_spec 1 nb) as [Q|Q].
  - destruct (E1 Q) as (n & K). apply kind_some in K. destruct K as (K1 & K2). apply pexec_one. exists (cst Cnil), []. split; [reflexivity|]. split; [reflexivity|]. split; [exact K2|]. cbn. auto.
  - specialize (E2 Q). apply kind_none in E2. split; [reflexivity|]. destruct q; cbn in *; subst. reflexivity.
Qed.
Lemma last_pexec : forall nb g rd d q vs, rd_ok g rd -> ms q = [] -> envst nb q -> map d rd = map Some vs ->
  exists d', pexec (last_code nb g rd) d q d' (Mach (Left V) [] (mg q ++ [(g_inl g, g_pred g, vs)])).
Proof.
  intros nb g rd d q vs RD MS ES EV. unfold last_code. destruct (g_inl g) eqn:EG.
  - assert (NL : me q <> Left V). { destruct ES as (E1 & E2). destruct (le_lt_dec nb 1) as [Q|Q]; [rewrite (kind_none _ (E2 Q)); discriminate|]. destruct (E1 Q) as (n & K). apply (kind_some _ _ K). }
    destruct (goal_pexec g rd d q vs RD MS NL ltac:(congruence) EV) as (d1 & H1 & _). rewrite EG in H1. exists d1. change (goal_inst g rd :: end_code nb true ++ [other i_proceed]) with ([goal_inst g rd] ++ end_code nb true ++ [other i_proceed]). apply pexec_app. eexists _, _. split; [exact H1|].
    apply pexec_app. exists d1. eexists. split; [apply end_pexec; [exact ES|reflexivity]|]. apply pexec_one. exists (cst Cnil), []. split; [reflexivity|]. split; [reflexivity|]. split; [discriminate|]. cbn. auto.
  - eexists. apply pexec_app. exists d. eexists. split; [apply end_pexec; [exact ES|exact MS]|]. apply pexec_one. exists (cst Cnil), vs. cbn [effect_of]. rewrite <- (RD EG). split; [exact EV|]. split; [reflexivity|]. split; [discriminate|]. cbn. auto.
Qed.
Lemma body_complete : forall l lp nb s c W, generate_body fl kd lp nb l s = Some c -> bodyok kd W lp nb l -> wk W s -> wfs N0 s -> lvl N0 (bvars l) -> (l = [] -> nb <= 1) ->
  forall d q e, ms q = [] -> envok q -> envst nb q -> pagree (fun n => In n (bvars l)) no_p s e d q ->
  exists d', pexec c d q d' (Mach (Left V) [] (mg q ++ map (goal_value e) (map snd l))).
Proof.
  induction l as [|(no, g) l IH]; intros lp nb s c W E BO HW WF HN HE d q e MS EO ES AG.
  - cbn in E. injection E as <-. exists d. apply pexec_one. exists (cst Cnil), []. split; [reflexivity|]. split; [reflexivity|]. split; [apply EO|]. cbn. rewrite app_nil_r. split; [exact MS|]. split; [apply kind_none; apply ES; auto|reflexivity].
  - destruct (body_inv _ _ _ _ _ _ _ E) as (c1 & rd & s1 & tl & AC & -> & TL). cbn [bodyok] in BO. destruct BO as (B1 & B2 & B3 & B4 & B5).
    change (bvars ((no, g) :: l)) with (lvars (g_args g) ++ bvars l) in *. apply lvl_app in HN. destruct HN as (N1 & N2).
    pose proof (wk_lp _ _ _ _ HW N1 B1) as LP. pose proof (wk_KV _ _ HW) as HK. pose proof (args_rd _ _ _ _ _ _ AC) as RD.
    destruct (args_shape fl kd N0 kd_inj _ _ _ _ _ _ AC WF N1 LP HK) as (S1 & _ & _).
    destruct (args_complete fl kd N0 kd_inj V cst fn _ _ _ _ _ _ AC WF N1 LP HK (fun n => In n (lvars (g_args g) ++ bvars l)) ltac:(intros n Hn _; apply in_app_iff; auto) d q e MS EO AG) as (d1 & q1 & H1 & X1 & M1 & G1 & O1 & AG1).
    assert (ES1 : envst nb q1) by (unfold envst; rewrite (pexec_env V cst fn _ _ _ _ _ (args_plain _ _ _ _ _ _ _ _ AC) H1); exact ES).
    destruct TL as [(-> & ->)|(NE & c3 & E3 & ->)].
    + rewrite (B3 eq_refl). destruct (last_pexec nb g rd d1 q1 _ RD M1 ES1 X1) as (d2 & H2). exists d2. apply pexec_app. exists d1, q1. split; [exact H1|]. rewrite <- G1. exact H2.
    + assert (NEV : g_inl g = false -> me q1 <> NoEnv V) by (intros Q; destruct ES1 as (E1 & _); destruct (E1 (B4 Q NE)) as (n & K); apply (kind_some _ _ K)).
      destruct (goal_pexec g rd d1 q1 _ RD M1 (proj1 O1) NEV X1) as (d2 & H2 & Hd).
      assert (W1 : wfs N0 s1) by (apply (shape_wfs _ _ _ _ _ _ _ S1 WF); intros ? []). pose proof (wk_step _ _ _ _ _ HW WF S1) as HW1.
      destruct (IH _ _ _ _ _ E3 B5 HW1 W1 N2 ltac:(congruence) d2 (Mach (me q1) [] (mg q1 ++ [(g_inl g, g_pred g, map (eval e) (g_args g))])) e) as (d3 & H3); [reflexivity| | | |].
      { exact O1. } { exact ES1. }
      { destruct AG1 as [G2 G3 G4]. constructor; [|exact G3|intros ? []]. intros n Hn EK K HL. destruct (g_inl g) eqn:EG.
        - rewrite (Hd eq_refl). apply G2; auto. apply in_app_iff. auto.
        - exfalso. apply (B2 eq_refl n EK HL). apply (HW1 n Hn). exact K. }
      exists d3. apply pexec_app. exists d1, q1. split; [exact H1|]. change (goal_inst g rd :: c3) with ([goal_inst g rd] ++ c3). apply pexec_app. rewrite G1 in H2, H3. eexists _, _. split; [exact H2|]. cbn [Clause_Spec.mg] in H3. rewrite <- app_assoc in H3. exact H3.
Qed.
End Vals.
End Main.
