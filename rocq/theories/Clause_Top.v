(** C60: the code of the clause. *)
Require Import List Bool Arith Lia Permutation.
Require Import Verif.RegAlloc_Model Verif.RegAlloc_Spec Verif.RegAlloc_Graph Verif.Clause_Model Verif.Clause_Spec Verif.Clause_Exec Verif.Clause_Shape Verif.Clause_Sound Verif.Clause_Complete Verif.Clause_Class Verif.Clause_Body Verif.Clause_Main.
Import ListNotations.

Lemma unif_lst_shape : forall fl kd N0 g l, (forall p, In p l -> forall s c s', g (snd p) (fst p) s = Some (c, s') -> exists k, gen_unif fl kd k (snd p) (fst p) s = Some (c, s')) ->
  forall s c s', gen_lst g l s = Some (c, s') -> wfs N0 s -> lvl N0 (lvars (map snd l)) -> (forall p, In p l -> tgt_ok N0 s (fst p)) -> shape kd N0 [] (lvars (map snd l)) s s' c /\ aw c = [].
Proof.
  intros fl kd N0 g. induction l as [|(x, t) l IH]; intros HG s c s' E W HN HX.
  - cbn in E. injection E as <- <-. split; [apply shape_nil|reflexivity].
  - cbn [gen_lst] in E. destruct (g t x s) as [(c1, s1)|] eqn:E1; [|discriminate E]. destruct (gen_lst g l s1) as [(c2, s2)|] eqn:E2; [|discriminate E]. injection E as <- <-.
    cbn [map snd lvars flat_map] in *. change (flat_map vars (map snd l)) with (lvars (map snd l)) in *. apply lvl_app in HN. destruct HN as (N1 & N2).
    destruct (HG (x, t) (or_introl eq_refl) s c1 s1 E1) as (k & Ek). cbn [fst snd] in Ek. pose proof (gen_unif_shape fl kd N0 _ _ _ _ _ _ Ek W N1 (HX (x, t) (or_introl eq_refl))) as S1. pose proof (sh_nxt _ _ _ _ _ _ _ S1) as L1.
    destruct (IH ltac:(intros p Hp; apply HG; right; exact Hp) s1 c2 s2 E2) as (S2 & A2); auto.
    + apply (shape_wfs _ _ _ _ _ _ _ S1 W); intros ? [].
    + intros p Hp u Hu. specialize (HX p (or_intror Hp) u Hu). lia.
    + split; [apply (shape_app kd N0 [] [] _ _ _ _ _ _ _ S1 S2 W); intros ? []|]. rewrite aw_app, A2, (gen_unif_aw _ _ _ _ _ _ _ _ Ek). reflexivity.
Qed.

Section Top.
Variable fl : flags.
Variable cl : clause.
Variable body : list (nat * goal).
Variable nb : nat.
Hypothesis E_body : chunks true 0 (c_body cl) = (body, nb).
Variable k : list (nat * kind).
Variable nby : nat.
Hypothesis E_k : classif_vars (dico (c_head cl) body) (if native fl then 0 else 3) = (k, nby).
Let kd := kind_of k.
Let N0 := max_var (map d_var (dico (c_head cl) body)).
Let s0 := St N0 (fun _ => None).
Let hl := reorder_head_arg_lst fl kd (arg_regs (c_head cl)).
Variable c1 c2 : list inst.
Variable s1 : st.
Hypothesis E_1 : gen_lst (unif_arg fl kd) hl s0 = Some (c1, s1).
Hypothesis E_2 : generate_body fl kd false nb body s1 = Some c2.
Let code := (if 1 <? nb then [other (i_allocate nby)] else []) ++ c1 ++ c2.

Lemma cls : class_ok kd N0 (if native fl then 0 else 3) nby nb (c_head cl) body.
Proof. apply compile_class; assumption. Qed.
Lemma inj : forall n n' y, n < N0 -> n' < N0 -> kd n = KY y -> kd n' = KY y -> n = n'.
Proof. apply (co_inj _ _ _ _ _ _ _ cls). Qed.
Lemma lt_head : lvl N0 (lvars (c_head cl)).
Proof. intros n Hn. apply (co_lt _ _ _ _ _ _ _ cls). apply in_app_iff. auto. Qed.
Lemma lt_body : lvl N0 (bvars body).
Proof. intros n Hn. apply (co_lt _ _ _ _ _ _ _ cls). apply in_app_iff. auto. Qed.
Lemma wfs0 : wfs N0 s0.
Proof. split; [apply le_n|reflexivity]. Qed.
Lemma wk0 : wk kd N0 [] s0.
Proof. intros n Hn. split; [intros K; exfalso; apply K; reflexivity|intros ([] & _)]. Qed.
Lemma KV0 : KV kd N0 s0.
Proof. apply (wk_KV _ _ _ _ wk0). Qed.
Lemma h_perm : Permutation hl (arg_regs (c_head cl)).
Proof. apply head_perm. Qed.
Lemma h_vars : Permutation (lvars (map snd hl)) (lvars (c_head cl)).
Proof. apply lvars_perm. rewrite <- (arg_regs_snd (c_head cl)). apply Permutation_map. apply h_perm. Qed.
Lemma h_in : forall n, In n (lvars (map snd hl)) <-> In n (lvars (c_head cl)).
Proof. intros n. split; apply Permutation_in; [apply h_vars|symmetry; apply h_vars]. Qed.
Lemma h_lt : lvl N0 (lvars (map snd hl)).
Proof. intros n Hn. apply lt_head. apply h_in. exact Hn. Qed.
Lemma h_tgt : forall p, In p hl -> tgt_ok N0 s0 (fst p).
Proof. intros p Hp t Q. destruct (all_A _ [] _ h_perm p Hp) as (a & E & _). congruence. Qed.
Lemma h_shape : shape kd N0 [] (lvars (c_head cl)) s0 s1 c1 /\ aw c1 = [].
Proof.
  destruct (unif_lst_shape fl kd N0 (unif_arg fl kd) hl) with (s := s0) (c := c1) (s' := s1) as (S1 & A1).
  - intros p _ s c s' E. exists (depth (snd p)). exact E.
  - exact E_1.
  - apply wfs0.
  - apply h_lt.
  - apply h_tgt.
  - split; [|exact A1]. apply (shape_incl _ _ _ _ _ _ _ _ S1). apply h_in.
Qed.
Lemma wfs1 : wfs N0 s1.
Proof. apply (shape_wfs _ _ _ _ _ _ _ (proj1 h_shape) wfs0). intros ? []. Qed.
Lemma wk1 : wk kd N0 (lvars (c_head cl)) s1.
Proof. apply (wk_step kd N0 [] _ _ _ _ wk0 wfs0 (proj1 h_shape)). Qed.

Section Vals.
Variable V : Type.
Variable cst : const -> V.
Variable fn : nat -> list V -> V.
Let q0 := Mach V (NoEnv V) [] [].
Lemma body_goals : map snd body = c_body cl.
Proof. apply (chunks_ok _ _ _ _ _ E_body). Qed.
Lemma empty_body : body = [] -> nb <= 1.
Proof. intros Q. destruct (chunks_ok _ _ _ _ _ E_body) as (Q1 & _ & _ & _ & _ & _ & Q2). rewrite Q in Q1. rewrite Q2; [auto|]. symmetry. exact Q1. Qed.
(** the environment after the start *)
Lemma alloc_exec : forall m q m' q', exec V cst fn (if 1 <? nb then [other (i_allocate nby)] else []) m q m' q' -> q = q0 -> m' = m /\ ms V q' = [] /\ mg V q' = [] /\ envok V kd N0 q'.
Proof.
  intros m q m' q' H ->. destruct (Nat.ltb_spec 1 nb) as [Q|Q].
  - destruct H as (m1 & q1 & (v & o & -> & _ & H) & -> & ->). cbn in H. destruct H as (_ & _ & f & ->). split; [reflexivity|]. split; [reflexivity|]. split; [reflexivity|]. split; [discriminate|].
    intros n y Hn EK. destruct (co_y _ _ _ _ _ _ _ cls n y EK) as (Q1 & _). unfold get_y. cbn [me]. destruct (Nat.ltb_spec y nby); [discriminate|lia].
  - destruct H as (-> & ->). split; [reflexivity|]. split; [reflexivity|]. split; [reflexivity|]. split; [discriminate|]. intros n y Hn EK. destruct (co_y _ _ _ _ _ _ _ cls n y EK). lia.
Qed.
Lemma alloc_pexec : forall d, exists q', pexec V cst fn (if 1 <? nb then [other (i_allocate nby)] else []) d q0 d q' /\ ms V q' = [] /\ mg V q' = [] /\ envok V kd N0 q' /\ envst V nb q'.
Proof.
  intros d. destruct (Nat.ltb_spec 1 nb) as [Q|Q].
  - exists (Mach V (Env V nby (fun _ => cst Cnil)) [] []). split; [|split; [reflexivity|split; [reflexivity|split; [split; [discriminate|]|split; [intros _; exists nby; reflexivity|lia]]]]].
    + apply pexec_one. exists (cst Cnil), []. split; [reflexivity|]. split; [reflexivity|]. split; [discriminate|]. cbn. eauto.
    + intros n y Hn EK. destruct (co_y _ _ _ _ _ _ _ cls n y EK) as (Q1 & _). unfold get_y. cbn [me]. destruct (Nat.ltb_spec y nby); [discriminate|lia].
  - exists q0. split; [cbn; auto|]. split; [reflexivity|]. split; [reflexivity|]. split; [split; [discriminate|]|split; [lia|reflexivity]]. intros n y Hn EK. destruct (co_y _ _ _ _ _ _ _ cls n y EK). lia.
Qed.
Lemma top_sound : forall m m' goals, exec V cst fn code m q0 m' (Mach V (Left V) [] goals) -> clause_means V cst fn cl (map m (map A (seq 0 (length (c_head cl))))) goals.
Proof.
  intros m m' goals H. unfold code in H. apply exec_app in H. destruct H as (m1 & q1 & H1 & H). destruct (alloc_exec _ _ _ _ H1 eq_refl) as (-> & MS & MG & EO). apply exec_app in H. destruct H as (m2 & q2 & H2 & H3).
  pose (L := fun n => In n (lvars (c_head cl) ++ bvars body)).
  pose proof (co_void _ _ _ _ _ _ _ cls) as ND. pose proof ND as ND'. apply vo_split in ND'. destruct ND' as (D1 & D2 & D3).
  destruct (gen_lst_unif_sound V cst fn fl kd N0 (unif_arg fl kd) hl) with (s := s0) (c := c1) (s' := s1) (L := L) (P := no_p) (m := m) (q := q1) (m' := m2) (q' := q2) (e := fun _ : nat => m (A 0)) as (_ & e & C1 & X1 & M2 & G2 & O2 & AG2); auto.
  { intros p _ s c s' E. split; [exists (depth (snd p)); exact E|]. apply (gen_unif_sound V cst fn fl kd N0 inj _ _ _ _ _ _ E). }
  { apply wfs0. } { apply h_lt. } { apply h_tgt. } { apply KV0. } { apply (vo_nodup_perm kd _ _ (Permutation_sym h_vars) D1). }
  { intros n Hn _. apply in_app_iff. left. apply h_in. exact Hn. } { intros y []. }
  { constructor; [intros n _ _ K; exfalso; apply K; reflexivity|intros n y _ _ K; exfalso; apply K; reflexivity|intros x []]. }
  destruct (body_sound fl kd N0 inj V cst fn body false nb s1 c2 (lvars (c_head cl)) E_2 (co_body _ _ _ _ _ _ _ cls) wk1 wfs1 (co_lt _ _ _ _ _ _ _ cls) ND m2 q2 m' _ e H3 M2 O2) as (e' & C2 & X2).
  { apply (agree_L _ _ _ _ _ _ _ _ _ _ _ AG2); [|auto]. intros n Hn. apply in_app_iff. auto. }
  exists e'. split.
  - apply regs_values. intros x t Hx. assert (HX : In (x, t) hl) by (apply (Permutation_in _ (Permutation_sym h_perm)); exact Hx). rewrite (X1 x t HX). apply eval_ext. intros n Hn. symmetry. apply C2. apply in_combine_r in Hx. apply (lvars_in _ t n Hx Hn).
  - injection X2 as ->. rewrite G2, MG, body_goals. reflexivity.
Qed.
Lemma top_complete : forall e d, map d (map A (seq 0 (length (c_head cl)))) = map Some (map (eval V cst fn e) (c_head cl)) ->
  exists d', pexec V cst fn code d q0 d' (Mach V (Left V) [] (map (goal_value V cst fn e) (c_body cl))).
Proof.
  intros e d EA. destruct (alloc_pexec d) as (q1 & H1 & MS & MG & EO & ES).
  pose (L := fun n => In n (lvars (c_head cl) ++ bvars body)).
  destruct (gen_lst_unif_complete V cst fn fl kd N0 (unif_arg fl kd) hl) with (s := s0) (c := c1) (s' := s1) (L := L) (P := no_p) (d := d) (q := q1) (e := e) as (d2 & q2 & H2 & M2 & G2 & O2 & AG2); auto.
  { intros p _ s c s' E. split; [exists (depth (snd p)); exact E|]. apply (gen_unif_complete V cst fn fl kd N0 inj _ _ _ _ _ _ E). }
  { apply wfs0. } { apply h_lt. } { apply h_tgt. } { apply KV0. }
  { intros n Hn _. apply in_app_iff. left. apply h_in. exact Hn. } { intros y []. }
  { constructor; [intros n _ _ K; exfalso; apply K; reflexivity|intros n y _ _ K; exfalso; apply K; reflexivity|intros x []]. }
  { intros x t Hx. rewrite (map_map (eval V cst fn e) Some) in EA. apply (regs_values_inv _ d (fun t => Some (eval V cst fn e t)) _ 0 EA). apply (Permutation_in _ h_perm). exact Hx. }
  assert (ES2 : envst V nb q2) by (unfold envst; rewrite (pexec_env V cst fn _ _ _ _ _ (plain_lst _ _ (fun t x s c s' E => plain_unif _ _ _ _ _ _ _ _ E) _ _ _ E_1) H2); exact ES).
  destruct (body_complete fl kd N0 inj V cst fn body false nb s1 c2 (lvars (c_head cl)) E_2 (co_body _ _ _ _ _ _ _ cls) wk1 wfs1 lt_body empty_body d2 q2 e M2 O2 ES2) as (d3 & H3).
  { apply (pagree_L _ _ _ _ _ _ _ _ _ _ _ AG2); [|auto]. intros n Hn. apply in_app_iff. auto. }
  exists d3. unfold code. apply pexec_app. exists d, q1. split; [exact H1|]. apply pexec_app. exists d2, q2. split; [exact H2|]. rewrite G2, MG, body_goals in H3. exact H3.
Qed.
End Vals.

(** * What the allocation of the registers needs *)
Lemma top_fwd : fwd (fun x => exists a, x = A a /\ a < length (c_head cl)) code.
Proof.
  pose (d := fun x => match x with A a => if a <? length (c_head cl) then Some tt else None | T _ => None end).
  destruct (top_complete unit (fun _ => tt) (fun _ _ => tt) (fun _ => tt) d) as (d' & H).
  { rewrite (map_map (eval unit (fun _ => tt) (fun _ _ => tt) (fun _ => tt)) Some). apply (regs_values _ d (fun t => Some (eval unit (fun _ => tt) (fun _ _ => tt) (fun _ => tt) t))). intros x t Hx. apply in_combine_l in Hx. apply in_map_iff in Hx. destruct Hx as (a & <- & Ha). apply in_seq in Ha.
    unfold d. destruct (Nat.ltb_spec a (length (c_head cl))); [|lia]. f_equal. destruct (eval _ _ _ _ t). reflexivity. }
  apply pexec_fwd in H. revert H. apply fwd_ext. intros [a|t] Hx; unfold d in Hx; [|congruence]. destruct (Nat.ltb_spec a (length (c_head cl))); [eauto|congruence].
Qed.
Lemma top_syn : NoDup (tw code) /\ gargs code /\ copies_ok code /\ lost_ok code.
Proof.
  destruct h_shape as (S1 & A1). destruct (body_syn fl kd N0 inj body false nb s1 c2 _ E_2 (co_body _ _ _ _ _ _ _ cls) wk1 wfs1 lt_body) as (I1 & I2 & I3 & I4 & I5).
  assert (AL : calls (if 1 <? nb then [other (i_allocate nby)] else [])).
  { destruct (1 <? nb); (split; [reflexivity|]; split; [reflexivity|]; split; [intros i x y Hi Q|intros i Hi _]); try contradiction; destruct Hi as [<-|[]]; [discriminate Q|reflexivity]. }
  destruct AL as (L1 & L2 & L3 & L4). unfold code. split; [|split; [|split]].
  - rewrite !tw_app, L1. cbn [app]. apply nodup_app_intro; [apply (sh_nd _ _ _ _ _ _ _ S1)|exact I1|]. intros n Q1 Q2. specialize (I2 n Q2). pose proof (sh_nxt _ _ _ _ _ _ _ S1) as LE. destruct (sh_tw _ _ _ _ _ _ _ S1 n Q1) as [[]|[(Q3 & Q4 & Q5 & Q6)|Q3]].
    + destruct I2 as [(_ & _ & I2)|I2]; [|destruct wfs1; lia]. apply I2. apply (sh_vars _ _ _ _ _ _ _ S1 n Q6). congruence.
    + change (nxt s0) with N0 in *. destruct I2 as [I2|I2]; lia.
  - apply gargs_calls; [exact L2|]. apply gargs_calls; [exact A1|exact I3].
  - apply copies_app; [exact L3|]. apply copies_app; [intros i x y; apply (sh_copy _ _ _ _ _ _ _ S1)|exact I4].
  - apply lost_app; [exact L4|]. apply lost_app; [apply (lost_shape _ _ _ _ _ _ _ S1)|exact I5].
Qed.
Lemma top_good : good_code code.
Proof.
  pose proof top_fwd as F. destruct top_syn as (N & G & C & L). split.
  - intros t Q. apply (fwd_needed _ _ _ F) in Q. destruct Q as (a & Q & _). discriminate Q.
  - intros l1 i l2 E. rewrite E in *. split; [|split; [|split]].
    + intros t j Ht Hj. rewrite tw_app in N. assert (NT : ~ In t (tw l1)).
      { intros Q. apply (nodup_app unit (fun _ _ => tt) 0) in N. destruct N as (_ & _ & N). apply (N t Q). change (i :: l2) with ([i] ++ l2). rewrite tw_app. apply in_app_iff. left. apply tw_in. cbn. rewrite app_nil_r. exact Ht. }
      assert (WJ : ~ In (T t) (writes_of j)) by (intros Q; apply NT; apply tw_in; apply in_flat_map; eauto). split; [|exact WJ].
      intros Q. apply in_split in Hj. destruct Hj as (u & v & ->). rewrite <- app_assoc in F. apply fwd_app in F. destruct F as (D' & (F1 & _) & F2). destruct (F2 _ (F1 _ Q)) as [(a & Q1 & _)|Q1]; [discriminate Q1|]. apply NT. rewrite tw_app. apply in_app_iff. left. apply tw_in. exact Q1.
    + intros a Ha. left. apply (gargs_split _ G _ _ _ eq_refl a Ha).
    + intros Q x Hx. apply fwd_app in F. destruct F as (D' & (_ & F1) & _). apply (fwd_needed _ _ _ F1) in Hx. rewrite Q in Hx. destruct Hx as [(Hx & _)|Hx]; [discriminate Hx|]. rewrite (L i) in Hx; [contradiction|apply in_app_iff; right; left; reflexivity|exact Q].
    + intros x y Q. apply (C i); [apply in_app_iff; right; left; reflexivity|exact Q].
Qed.
End Top.
