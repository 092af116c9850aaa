(** C61: the code of the body and of the clause passes the check. *)
Require Import List Bool Arith Lia Permutation.
Require Import Verif.RegAlloc_Model Verif.RegAlloc_Spec Verif.RegAlloc_Graph Verif.Clause_Model Verif.Clause_Exec Verif.Clause_Shape Verif.Clause_Sound Verif.Clause_Complete Verif.Clause_Class Verif.Clause_Body Verif.Clause_Main Verif.Clause_Top.
Require Import Verif.Place_Spec Verif.Place_Check Verif.Place_Gen.
Import ListNotations.

(** the goals of a chunk have the same number *)
Fixpoint chok (l : list (nat * goal)) : Prop :=
  match l with [] => True | (no, g) :: l => (g_inl g = true -> match l with p :: _ => fst p = no | [] => True end) /\ chok l end.
Lemma chunks_chok : forall l start no body nb, chunks start no l = (body, nb) -> chok body /\ (start = false -> match body with p :: _ => fst p = no | [] => True end).
Proof.
  induction l as [|g l IH]; intros start no body nb E; cbn in E; [injection E as <- <-; cbn; auto|].
  destruct (chunks (negb (g_inl g)) (if start then no + 1 else no) l) as (b, nb1) eqn:E1. injection E as <- <-. destruct (IH _ _ _ _ E1) as (I1 & I2). cbn. split; [split; [|exact I1]|].
  - intros Q. apply I2. rewrite Q. reflexivity.
  - intros ->. reflexivity.
Qed.
Definition goal_ok (p : nat * goal) : bool := forallb no_meta_var (g_args (snd p)).

Section Body.
Variable fl : flags.
Variable kd : nat -> kind.
Variable N0 nby : nat.
Variable ev : bool.
Hypothesis kd_inj : forall n n' y, n < N0 -> n' < N0 -> kd n = KY y -> kd n' = KY y -> n = n'.
Hypothesis HY : forall n y, kd n = KY y -> ev = true /\ y < nby.
Notation wfs := (wfs N0).
Notation kxok := (kxok kd N0).
Notation ycov := (ycov kd N0).
Notation bnd := (bnd kd N0).
(** the registers of the arguments of inline goals *)
Definition evl : place := if ev then Cur else Outer.
Definition axl (B : nat -> place) (lx : list nat) (s s' : st) : Prop := forall x, nxt s <= x < nxt s' -> (In x lx -> B x = evl) /\ (~ In x lx -> B x = Heap).
Lemma byreg_check : forall lp l s c lx s', load_by_reg_arg_lst fl kd lp l s = Some (c, lx, s') -> wfs s -> lvl N0 (lvars l) -> lp_ok kd lp s (lvars l) -> forallb no_meta_var l = true -> (lp = false -> ev = true) ->
  ext s s' /\ wfs s' /\ (forall x, In x lx -> nxt s <= x < nxt s') /\
  forall B BY ab, axl B lx s s' -> (kxok s -> kxok s') /\ forall D, bnd B BY s' -> ycov D s -> kxok s -> ts nby B BY ev ab D c /\ ycov (after D c) s'.
Proof.
  intros lp. induction l as [|t l IH]; intros s c lx s' E W HN HL NM HE; cbn [load_by_reg_arg_lst] in E.
  - injection E as <- <- <-. split; [apply ext_refl|]. split; [exact W|]. split; [intros x []|]. intros B BY ab _. split; [auto|]. intros D _ HD _. split; [exact Logic.I|exact HD].
  - cbn [new_reg] in E. set (s0 := St (S (nxt s)) (inf s)) in E. destruct (load_arg fl kd lp t (T (nxt s)) s0) as [(c1, s1)|] eqn:E1; [|discriminate E]. destruct (load_by_reg_arg_lst fl kd lp l s1) as [((c2, lx1), s2)|] eqn:E2; [|discriminate E]. injection E as <- <- <-.
    cbn [lvars flat_map] in *. change (flat_map vars l) with (lvars l) in *. apply lvl_app in HN. destruct HN as (N1 & N2). cbn in NM. apply andb_true_iff in NM. destruct NM as (M1 & M2). unfold load_arg in E1.
    assert (P1 : lp_ok kd lp s0 (vars t)) by (intros Q n y Hn EK; apply (HL Q n y); [apply in_app_iff; auto|exact EK]). assert (P2 : lp_ok kd lp s (lvars l)) by (intros Q n y Hn EK; apply (HL Q n y); [apply in_app_iff; auto|exact EK]).
    assert (W0 : wfs s0) by (apply (new_reg_wfs N0 s W)). assert (TG : tgt_ok N0 s0 (T (nxt s))) by (intros u Q; injection Q as <-; cbn; destruct W; lia).
    pose proof (gen_load_shape fl kd N0 _ _ _ _ _ _ _ E1 W0 N1 TG P1) as S1. assert (W1 : wfs s1) by (apply (shape_wfs _ _ _ _ _ _ _ S1 W0); intros z [<-|[]]; cbn; lia).
    assert (X0 : ext s s0) by (split; [cbn; lia|reflexivity]). assert (X1 : ext s0 s1) by (apply (shape_ext _ _ _ _ _ _ _ S1)). assert (X01 := ext_trans _ _ _ X0 X1).
    assert (P3 : lp_ok kd lp s1 (lvars l)) by (intros Q n y Hn EK; unfold known; destruct X01 as (_ & X01); rewrite X01; apply (P2 Q n y Hn EK)).
    destruct (IH _ _ _ _ E2 W1 N2 P3 M2 HE) as (X2 & W2 & R2 & I2). assert (L0 : nxt s0 = S (nxt s)) by reflexivity. destruct X1 as (L1 & X1), X2 as (L2 & X2). rewrite L0 in L1. split; [apply (ext_trans _ _ _ X01); split; assumption|]. split; [exact W2|]. split.
    { intros x [<-|Hx]; [lia|]. specialize (R2 x Hx). lia. }
    intros B BY ab HA. assert (A2 : axl B lx1 s1 s2).
    { intros x Hx. destruct (HA x ltac:(lia)) as (Q1 & Q2). split; [intros Q; apply Q1; right; exact Q|]. intros Q. apply Q2. intros [<-|Q3]; [lia|contradiction]. }
    assert (A1 : auxh B s0 s1).
    { intros x Hx. destruct (HA x ltac:(lia)) as (_ & Q). apply Q. intros [<-|Q3]; [lia|]. specialize (R2 x Q3). lia. }
    assert (TL : tgl B ab lp t (T (nxt s))). { intros _. cbn. destruct (HA (nxt s) ltac:(lia)) as (Q & _). rewrite (Q ltac:(left; reflexivity)). unfold evl, lim. destruct lp, ev; try exact Logic.I. specialize (HE eq_refl). discriminate HE. }
    assert (G1 := gen_load_good fl kd N0 nby B BY ev ab HY _ _ _ _ _ _ _ E1 W0 N1 TG P1 M1 TL). destruct (I2 B BY ab A2) as (K2 & T2). split.
    + intros K. apply K2. apply (g_kx _ _ _ _ _ _ _ _ _ _ G1 A1). exact K.
    + intros D HB HD HK. destruct (g_ts _ _ _ _ _ _ _ _ _ _ G1 D) as (Q1 & Q2); auto.
      * apply (bnd_ext _ _ _ _ _ _ (conj L2 X2) HB).
      * destruct (T2 (after D c1) HB Q2 (g_kx _ _ _ _ _ _ _ _ _ _ G1 A1 HK)) as (Q3 & Q4). split; [apply ts_app; assumption|rewrite after_app; exact Q4].
Qed.
Lemma args_check : forall lp g s c1 rd s1, args_code fl kd lp g s c1 rd s1 -> wfs s -> lvl N0 (lvars (g_args g)) -> lp_ok kd lp s (lvars (g_args g)) -> forallb no_meta_var (g_args g) = true -> (lp = false -> ev = true) ->
  exists lx, ext s s1 /\ wfs s1 /\ (forall x, In x lx -> nxt s <= x < nxt s1) /\ (g_inl g = true -> rd = map T lx) /\ (kxok s -> kxok s1) /\
  forall B BY, axl B lx s s1 -> forall D, bnd B BY s1 -> ycov D s -> kxok s -> ts nby B BY ev (lim lp) D c1 /\ ycov (after D c1) s1.
Proof.
  intros lp g s c1 rd s1 H W HN HL NM HE. unfold args_code in H. destruct (g_inl g) eqn:EG.
  - destruct H as (lx & H & ->). destruct (byreg_check _ _ _ _ _ _ H W HN HL NM HE) as (X & W1 & R & I1). exists lx. split; [exact X|]. split; [exact W1|]. split; [exact R|]. split; [reflexivity|]. split.
    + destruct (I1 (fun x => if in_dec Nat.eq_dec x lx then evl else Heap) (fun _ => Heap) Heap) as (K & _); [|exact K]. intros x _. destruct (in_dec Nat.eq_dec x lx); split; auto; contradiction.
    + intros B BY HA. apply (I1 B BY (lim lp) HA).
  - destruct H as (H & _). set (l := reorder_body_arg_lst fl kd (arg_regs (g_args g))) in *.
    assert (IV : forall p n, In p l -> In n (vars (snd p)) -> In n (lvars (g_args g))).
    { intros p n Hp Hn. apply (lvars_in _ (snd p)); [|exact Hn]. rewrite <- (arg_regs_snd (g_args g)). apply in_map. apply (Permutation_in _ (lst_perm fl kd g)). exact Hp. }
    assert (IM : forall p, In p l -> no_meta_var (snd p) = true).
    { intros p Hp. rewrite forallb_forall in NM. apply NM. rewrite <- (arg_regs_snd (g_args g)). apply in_map. apply (Permutation_in _ (lst_perm fl kd g)). exact Hp. }
    assert (G : forall B BY, Good kd N0 nby B BY ev (lim lp) s s1 c1).
    { intros B BY. apply (gen_lst_good kd N0 nby B BY ev (lim lp) (load_arg fl kd lp) (fun s p => lp_ok kd lp s (vars (snd p))) l) with (s := s); auto.
      - intros sa sb p (_ & K) Q2 Q n y Hn EK. specialize (Q2 Q n y Hn EK). unfold known. rewrite K by exact Q2. exact Q2.
      - intros p Hp sa ca sb Ea Wa Pa. destruct (lst_A fl kd g p Hp) as (a & EA). apply (gen_load_good fl kd N0 nby B BY ev (lim lp) HY _ _ _ _ _ _ _ Ea Wa); auto.
        + intros n Hn. apply HN. apply (IV p n Hp Hn).
        + intros u Eu. congruence.
        + intros _. rewrite EA. apply ple_refl.
      - intros p Hp Q n y Hn EK. apply (HL Q n y); [apply (IV p n Hp Hn)|exact EK]. }
    exists []. split; [apply (g_ext _ _ _ _ _ _ _ _ _ _ (G (fun _ => Heap) (fun _ => Heap)))|]. split; [apply (g_wfs _ _ _ _ _ _ _ _ _ _ (G (fun _ => Heap) (fun _ => Heap)))|]. split; [intros x []|]. split; [discriminate|]. split.
    + apply (g_kx _ _ _ _ _ _ _ _ _ _ (G (fun _ => Heap) (fun _ => Heap))). intros x _. reflexivity.
    + intros B BY HA D HB. apply (g_ts _ _ _ _ _ _ _ _ _ _ (G B BY) D HB). intros x Hx. apply (HA x Hx). intros [].
Qed.

(** * The body *)
Definition axb (B : nat -> place) (lx : list nat) (s : st) : Prop := forall x, nxt s <= x -> (In x lx -> B x = evl) /\ (~ In x lx -> B x = Heap).
Definition lp1 (lp : bool) (nb : nat) (l : list (nat * goal)) : bool := match l with (no, _) :: _ => lp || (no =? nb) | [] => lp end.
Lemma ti_noy : forall B BY ab e i, ti1 B BY ab i -> ti_env nby e i -> y_reads i = [] -> y_writes i = [] -> (e = false -> forall x, In x (reads_of i) -> ple (rb B ab x) Outer) -> ti nby B BY e ab i.
Proof. intros B BY ab e i Q1 Q2 Q3 Q4 Q5. split; [exact Q1|]. split; [exact Q2|]. split; [rewrite Q3, Q4; intros y []|exact Q5]. Qed.
Lemma tc_one : forall B BY e ab ab' (D : nat -> Prop) i l, ti nby B BY e ab i -> y_reads i = [] -> (lost_by i = false -> ple ab ab') -> tc nby B BY (ev_after e i) ab' (y_after D i) l -> tc nby B BY e ab D (i :: l).
Proof. intros B BY e ab ab' D i l Q1 Q2 Q3 Q4. cbn [tc]. exists ab. split; [apply ple_refl|]. split; [exact Q1|]. split; [rewrite Q2; intros y []|]. exists ab'. auto. Qed.
Lemma last_check : forall B BY no g rd (D : nat -> Prop), ev = (1 <? no) -> (g_inl g = true -> forall x, In x rd -> ev = false -> ple (rb B Outer x) Outer) -> tc nby B BY ev Outer D (last_code no g rd).
Proof.
  intros B BY no g rd D HE HR.
  assert (EC : forall D tl, (forall D, tc nby B BY false Outer D tl) -> tc nby B BY ev Outer D (end_code no true ++ tl)).
  { intros D0 tl H. unfold end_code. destruct (1 <? no) eqn:E; cbn [app]; rewrite HE; [|apply H]. apply (tc_one _ _ _ _ Outer); [|reflexivity|intros _; apply ple_refl|apply H]. apply ti_noy; try reflexivity. discriminate. }
  unfold last_code, goal_inst. destruct (g_inl g).
  - apply (tc_one _ _ _ _ Outer); [|reflexivity|intros _; apply ple_refl|].
    + apply ti_noy; try reflexivity; [split; reflexivity|]. intros Q x Hx. change (In x (x_args (map CX rd))) in Hx. rewrite x_args_CX in Hx. auto.
    + apply EC. intros D1. apply (tc_one _ _ _ _ Outer); [|reflexivity|intros _; apply ple_refl|exact Logic.I]. apply ti_noy; try reflexivity. intros _ x [].
  - apply EC. intros D1. apply (tc_one _ _ _ _ Outer); [|reflexivity|intros _; apply ple_refl|exact Logic.I]. apply ti_noy; try reflexivity. intros _ x Hx. apply in_map_iff in Hx. destruct Hx as (a & <- & _). exact Logic.I.
Qed.
Lemma body_check : forall l lp nb s c W, generate_body fl kd lp nb l s = Some c -> l <> [] -> bodyok kd W lp nb l -> wk kd N0 W s -> wfs s -> lvl N0 (bvars l) -> chok l -> forallb goal_ok l = true -> ev = (1 <? nb) -> (forall p, In p l -> 1 <= fst p <= nb) ->
  exists sf lx, ext s sf /\ wfs sf /\ (kxok s -> kxok sf) /\ (forall x, In x lx -> nxt s <= x < nxt sf) /\
  forall B BY, bnd B BY sf -> axb B lx s -> forall D, ycov D s -> kxok s -> tc nby B BY ev (lim (lp1 lp nb l)) D c.
Proof.
  induction l as [|(no, g) l IH]; intros lp nb s c W E NE BO HW WF HN CH GO HE HLE; [congruence|]. clear NE.
  destruct (body_inv _ _ _ _ _ _ _ _ _ E) as (c1 & rd & s1 & tl & AC & -> & TL). cbn [bodyok] in BO. destruct BO as (B1 & B2 & B3 & B4 & B5).
  change (bvars ((no, g) :: l)) with (lvars (g_args g) ++ bvars l) in HN. apply lvl_app in HN. destruct HN as (N1 & N2). cbn [chok] in CH. destruct CH as (CH1 & CH2). cbn [forallb] in GO. apply andb_true_iff in GO. destruct GO as (GO1 & GO2). cbn [lp1]. set (lq := lp || (no =? nb)) in *.
  assert (LE : lq = false -> ev = true). { intros Q. unfold lq in Q. apply orb_false_iff in Q. destruct Q as (_ & Q). apply Nat.eqb_neq in Q. rewrite HE. apply Nat.ltb_lt. specialize (HLE (no, g) (or_introl eq_refl)). cbn in HLE. lia. }
  assert (LPO := wk_lp _ _ _ _ _ _ HW N1 B1).
  destruct (args_check _ _ _ _ _ _ AC WF N1 LPO GO1 LE) as (lx & X1 & W1 & R1 & RD & K1 & T1).
  destruct TL as [(-> & ->)|(NE & c3 & E3 & ->)].
  - exists s1, lx. split; [exact X1|]. split; [exact W1|]. split; [exact K1|]. split; [exact R1|]. intros B BY HB HA D HD HK. destruct (T1 B BY) with (D := D) as (Q1 & Q2); auto.
    { intros x Hx. apply HA. lia. }
    assert (QB := B3 eq_refl). assert (QL : lq = true) by (unfold lq; rewrite QB, Nat.eqb_refl; apply orb_true_r). rewrite QL in *. apply ts_tc; [exact Q1|]. apply last_check; [rewrite QB; exact HE|]. intros GI x Hx Ee. rewrite (RD GI) in Hx. apply in_map_iff in Hx. destruct Hx as (t & <- & Ht). cbn. destruct (HA t ltac:(apply (R1 t Ht))) as (QA & _). rewrite (QA Ht). unfold evl. rewrite Ee. exact Logic.I.
  - destruct (args_shape fl kd N0 kd_inj _ _ _ _ _ _ AC WF N1 LPO (wk_KV _ _ _ _ HW)) as (S1 & _ & _).
    destruct (IH _ _ _ _ _ E3 NE B5 (wk_step _ _ _ _ _ _ _ HW WF S1) W1 N2 CH2 GO2 HE ltac:(intros p Hp; apply HLE; right; exact Hp)) as (sf & lx2 & X2 & W2 & K2 & R2 & T2).
    destruct X1 as (L1 & X1), X2 as (L2 & X2). exists sf, (lx ++ lx2). split; [apply (ext_trans _ s1); split; assumption|]. split; [exact W2|]. split; [auto|]. split.
    { intros x Hx. apply in_app_iff in Hx. destruct Hx as [Hx|Hx]; [specialize (R1 x Hx)|specialize (R2 x Hx)]; lia. }
    intros B BY HB HA D HD HK. destruct (T1 B BY) with (D := D) as (Q1 & Q2); auto.
    { intros x Hx. destruct (HA x ltac:(lia)) as (Q1 & Q2). split; [intros Q; apply Q1; apply in_app_iff; auto|]. intros Q. apply Q2. intros Q3. apply in_app_iff in Q3. destruct Q3 as [Q3|Q3]; [contradiction|]. specialize (R2 x Q3). lia. }
    { apply (bnd_ext _ _ _ _ _ _ (conj L2 X2) HB). }
    apply ts_tc; [exact Q1|].
    assert (T3 : forall D', ycov D' s1 -> tc nby B BY ev (lim (lp1 lq nb l)) D' c3).
    { intros D' HD'. apply T2; auto. intros x Hx. destruct (HA x ltac:(lia)) as (Q3 & Q4). split; [intros Q; apply Q3; apply in_app_iff; auto|]. intros Q. apply Q4. intros Q5. apply in_app_iff in Q5. destruct Q5 as [Q5|Q5]; [|contradiction]. specialize (R1 x Q5). lia. }
    assert (YC : ycov (y_after (after D c1) (goal_inst g rd)) s1). { intros n y Hn Kn Ey. specialize (Q2 n y Hn Kn Ey). unfold goal_inst. destruct (g_inl g); left; exact Q2. }
    apply (tc_one _ _ _ _ (lim (lp1 lq nb l))).
    + unfold goal_inst. destruct (g_inl g) eqn:GI.
      * apply ti_noy; try reflexivity; [split; reflexivity|]. intros Ee x Hx. change (In x (x_args (map CX rd))) in Hx. rewrite x_args_CX in Hx. rewrite (RD eq_refl) in Hx. apply in_map_iff in Hx. destruct Hx as (t & <- & Ht). cbn. destruct (HA t ltac:(apply (R1 t Ht))) as (QA & _). rewrite QA by (apply in_app_iff; auto). unfold evl. rewrite Ee. exact Logic.I.
      * assert (Ee : ev = true) by (rewrite HE; apply Nat.ltb_lt; auto). apply ti_noy; try reflexivity; [exact Ee|]. congruence.
    + unfold goal_inst. destruct (g_inl g); reflexivity.
    + unfold goal_inst. destruct (g_inl g); [|discriminate]. intros _. specialize (CH1 eq_refl). destruct l as [|(no2, g2) l]; [congruence|]. cbn in CH1. subst no2. cbn [lp1]. unfold lq. rewrite <- orb_assoc, orb_diag. apply ple_refl.
    + unfold goal_inst in *. destruct (g_inl g); cbn [ev_after]; apply T3; exact YC.
Qed.
End Body.

Section Top.
Variable fl : flags.
Variable cl : clause.
Variable body : list (nat * goal).
Variable nb : nat.
Hypothesis E_body : chunks true 0 (c_body cl) = (body, nb).
Variable k : list (nat * kind).
Variable nby : nat.
Hypothesis E_k : classif_vars (dico (c_head cl) body) (if native fl then 0 else 3) = (k, nby).
Let kd := kind_of k.
Let N0 := max_var (map d_var (dico (c_head cl) body)).
Let s0 := St N0 (fun _ => None).
Let hl := reorder_head_arg_lst fl kd (arg_regs (c_head cl)).
Variable c1 c2 : list inst.
Variable s1 : st.
Hypothesis E_1 : gen_lst (unif_arg fl kd) hl s0 = Some (c1, s1).
Hypothesis E_2 : generate_body fl kd false nb body s1 = Some c2.
Let code := (if 1 <? nb then [other (i_allocate nby)] else []) ++ c1 ++ c2.
Hypothesis NM : body_no_meta_var cl = true.
Let ev := 1 <? nb.
Let CL := cls fl cl body nb E_body k nby E_k.

Lemma top_HY : forall n y, kd n = KY y -> ev = true /\ y < nby.
Proof. intros n y E. destruct (co_y _ _ _ _ _ _ _ CL n y E) as (Q1 & Q2). split; [apply Nat.ltb_lt; exact Q2|lia]. Qed.
Lemma top_head : forall B BY, Good kd N0 nby B BY ev Outer s0 s1 c1.
Proof.
  intros B BY. apply (gen_lst_good kd N0 nby B BY ev Outer (unif_arg fl kd) (fun s p => tgt_ok N0 s (fst p)) hl) with (s := s0); auto.
  - intros sa sb p (L & _) Q u Eu. specialize (Q u Eu). lia.
  - intros p Hp sa ca sb Ea Wa Pa. apply (gen_unif_good fl kd N0 nby B BY ev Outer top_HY _ _ _ _ _ _ Ea Wa); auto.
    + intros n Hn. apply (h_lt fl cl body nb E_body k nby E_k). apply (lvars_in _ (snd p)); [apply in_map; exact Hp|exact Hn].
    + destruct (all_A _ [] _ (h_perm fl cl k) p Hp) as (a & -> & _). exact Logic.I.
  - apply wfs0.
  - apply (h_tgt fl cl body k).
Qed.
Lemma body_goals_ok : forallb goal_ok body = true.
Proof.
  apply forallb_forall. intros p Hp. unfold body_no_meta_var in NM. rewrite forallb_forall in NM. unfold goal_ok. apply NM. destruct (chunks_ok _ _ _ _ _ E_body) as (Q & _). rewrite <- Q. apply in_map. exact Hp.
Qed.
(** the bounds *)
Lemma bounds : forall sf lx, exists B BY, bnd kd N0 B BY sf /\ (forall x, N0 <= x -> (In x lx -> B x = evl ev) /\ (~ In x lx -> B x = Heap)).
Proof.
  intros sf lx. exists (fun x => if x <? N0 then match inf sf x with Some i => pl i | None => Heap end else if in_dec Nat.eq_dec x lx then evl ev else Heap).
  exists (fun y => match find (fun n => match kd n with KY z => z =? y | _ => false end) (seq 0 N0) with Some n => match inf sf n with Some i => pl i | None => Heap end | None => Heap end). split.
  - intros n i Hn Ei. assert (Q : (if n <? N0 then match inf sf n with Some i => pl i | None => Heap end else if in_dec Nat.eq_dec n lx then evl ev else Heap) = pl i) by (destruct (Nat.ltb_spec n N0); [rewrite Ei; reflexivity|lia]).
    destruct (kd n) as [| |y] eqn:EK; auto. destruct (find _ (seq 0 N0)) as [n'|] eqn:EF.
    + apply find_some in EF. destruct EF as (F1 & F2). apply in_seq in F1. destruct (kd n') as [| |z] eqn:EK'; try discriminate F2. apply Nat.eqb_eq in F2. subst z. assert (n' = n) by (apply (co_inj _ _ _ _ _ _ _ CL n' n y); auto; lia). subst n'. rewrite Ei. reflexivity.
    + exfalso. apply (find_none _ _ EF n) in Q as F || (pose proof (find_none _ _ EF n ltac:(apply in_seq; lia)) as F). cbv beta in F. rewrite EK, Nat.eqb_refl in F. discriminate F.
  - intros x Hx. destruct (Nat.ltb_spec x N0); [lia|]. destruct (in_dec Nat.eq_dec x lx); split; auto; contradiction.
Qed.
Lemma top_check : exists B BY, tc nby B BY false Outer (fun _ => False) code.
Proof.
  assert (W0 := wfs0 cl body). assert (W1 := wfs1 fl cl body nb E_body k nby E_k c1 s1 E_1). fold N0 in W0, W1. fold s0 in W0.
  assert (G0 := top_head (fun _ => Heap) (fun _ => Heap)). assert (X1 := g_ext _ _ _ _ _ _ _ _ _ _ G0). assert (K0 : kxok kd N0 s0) by (intros n _ _; discriminate). assert (K1 : kxok kd N0 s1) by (apply (g_kx _ _ _ _ _ _ _ _ _ _ G0); [intros x _; reflexivity|exact K0]).
  assert (YC0 : forall D, ycov kd N0 D s0) by (intros D n y _ K; exfalso; apply K; reflexivity).
  assert (HB : exists sf lx, ext s1 sf /\ (forall x, In x lx -> nxt s1 <= x) /\ forall B BY, bnd kd N0 B BY sf -> axb ev B lx s1 -> forall D, ycov kd N0 D s1 -> tc nby B BY ev Outer D c2).
  { assert (EB : body = [] \/ body <> []) by (destruct body; [left; reflexivity|right; discriminate]). destruct EB as [EB|EB].
    - exists s1, []. split; [apply ext_refl|]. split; [intros x []|]. intros B BY _ _ D _. pose proof E_2 as Q2. rewrite EB in Q2. cbn in Q2. injection Q2 as <-. assert (Q : ev = false) by (unfold ev; apply Nat.ltb_ge; apply (empty_body cl body nb E_body EB)). rewrite Q.
      apply (tc_one _ _ _ _ _ Outer); [|reflexivity|intros _; apply ple_refl|exact Logic.I]. apply ti_noy; try reflexivity. intros _ x [].
    - destruct (body_check fl kd N0 nby ev (co_inj _ _ _ _ _ _ _ CL) top_HY body false nb s1 c2 (lvars (c_head cl)) E_2) as (sf & lx & Q1 & Q2 & Q3 & Q4 & Q5); auto.
      + apply (co_body _ _ _ _ _ _ _ CL).
      + apply (wk1 fl cl body nb E_body k nby E_k c1 s1 E_1).
      + apply (lt_body fl cl body nb E_body k nby E_k).
      + apply (chunks_chok _ _ _ _ _ E_body).
      + apply body_goals_ok.
      + intros q Hq. destruct (chunks_ok _ _ _ _ _ E_body) as (_ & _ & _ & Q & _). specialize (Q q Hq). cbn in Q. exact Q.
      + exists sf, lx. split; [exact Q1|]. split; [intros x Hx; apply (Q4 x Hx)|]. intros B BY HB HA D HD. apply (tc_weak _ _ _ _ _ (lim (lp1 false nb body))); [destruct (lp1 false nb body); exact Logic.I|]. apply (Q5 B BY HB HA D HD K1). }
  destruct HB as (sf & lx & X2 & R2 & T2). destruct (bounds sf lx) as (B & BY & HB & HA). exists B, BY.
  assert (L1 : nxt s0 <= nxt s1) by (apply X1). change (nxt s0) with N0 in L1.
  assert (AH : auxh B s0 s1). { intros x Hx. change (nxt s0) with N0 in Hx. apply (HA x ltac:(lia)). intros Q. specialize (R2 x Q). lia. }
  assert (MAIN : forall D, tc nby B BY ev Outer D (c1 ++ c2)).
  { intros D. destruct (g_ts _ _ _ _ _ _ _ _ _ _ (top_head B BY) D (bnd_ext _ _ _ _ _ _ X2 HB) AH (YC0 D) K0) as (Q1 & Q2). apply ts_tc; [exact Q1|]. apply T2; [exact HB|intros x Hx; apply HA; lia|exact Q2]. }
  unfold code. unfold ev in MAIN. destruct (1 <? nb) eqn:EN; cbn [app].
  - apply (tc_one _ _ _ _ _ Outer); [|reflexivity|intros _; apply ple_refl|]. + apply ti_noy; try reflexivity; [split; reflexivity|]. intros _ x []. + cbn [ev_after]. apply MAIN.
  - apply MAIN.
Qed.
Lemma top_safe : safe_code (length (c_head cl)) code.
Proof.
  destruct top_check as (B & BY & H). apply (tc_safe nby B BY (length (c_head cl)) code _ H (top_fwd fl cl body nb E_body k nby E_k c1 c2 s1 E_1 E_2)). auto.
Qed.
End Top.
