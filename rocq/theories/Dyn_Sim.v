(** The simulation. *)
Require Import ZArith List Bool Lia Arith Sorted.
Require Import Verif.Heap_Model Verif.Dyn_Model Verif.Dyn_Spec Verif.Dyn_Chain Verif.Dyn_Inv Verif.Dyn_Add Verif.Dyn_Free Verif.Dyn_Rel Verif.Dyn_GC Verif.Dyn_Steps.
Import ListNotations.
Open Scope Z_scope.

Lemma stamp_ok pd s L LD a na nc d D : R pd s L LD a na nc -> mk s LD [] -> cur s = None -> dyns s d = Some D ->
  let s' := putd s d (set_stamp D (curr_stamp D + 1)) in R pd s' L LD a na (nc + 1) /\ mk s' LD [].
Proof.
  intros H Mk Hcur Hd s'. pose proof H as [Rdok Rcnt Rown Rald Rld Rnd Rin Rout Rpd Rinj Renv Rfr Raenv Rcur Rdb Rcount].
  pose proof (Rdok d D Hd) as K. pose proof (Rcnt d D Hd) as Cn. set (D' := set_stamp D (curr_stamp D + 1)) in *.
  assert (Hd' : dyns s' d = Some D') by (cbn; apply upd_eq). assert (Ho : forall e, e <> d -> dyns s' e = dyns s e) by (intros e N; cbn; now apply upd_neq).
  split.
  - apply (R_step pd s s' L LD LD a a na nc na (nc + 1) d D (L d) L); auto; try reflexivity; try lia.
    + intros e. unfold upd. destruct (Nat.eqb e d) eqn:E; [apply Nat.eqb_eq in E; now subst|reflexivity].
    + intros e N. rewrite Ho by auto. destruct (dyns s e); [|reflexivity]. eexists. split; [reflexivity|apply dsim_refl].
    + destruct Rld as [R1 R2]. split; [exact R1|]. apply (dseg_ext (dyns s)); [|exact R2]. intros e De _ He. destruct (Nat.eq_dec e d) as [->|N]; [rewrite Hd in He; injection He as <-; eexists; split; [exact Hd'|reflexivity]|]. rewrite Ho by auto. eauto.
    + intros y c Hyd0 Hy. cbn in Hy. assert (Hyd : In y (L d)) by tauto. destruct (k_cl _ _ _ _ _ K y Hyd) as [c1 [A [B _]]]. rewrite A in Hy. injection Hy as <-. split; [eapply Rown; eauto|]. split; [exact B|]. split; [congruence|exact Hyd].
    + intros D1 E. rewrite Hd' in E. injection E as <-. split; [apply (dok_ext scan_ok (cls s) _ d D _); auto using scan_ok_ext; unfold D'; cbn [curr_stamp set_stamp]; lia|]. split; [unfold D'; cbn [count_a count_z curr_stamp set_stamp]; lia|]. split; [intros I; exact (Rin d D I Hd)|]. intros NI. exact (Rout d D NI Hd).
    + intros _ D1 HD1. rewrite Hd in HD1. injection HD1 as <-. exists D', [], []. split; [exact Hd'|]. split; [now rewrite app_nil_r|]. split; [|split; [intros ? []|unfold D'; cbn [count_a count_z curr_stamp set_stamp]; lia]]. intros x Hx. destruct (k_cl _ _ _ _ _ K x Hx) as [c1 [A _]]. exists c1, c1. auto.
    + intros p Hp. split; [congruence|]. rewrite Rdb, Hp. reflexivity.
  - intros e De Ie He. split; [|intros []]. intros _. destruct (Nat.eq_dec e d) as [->|N]; [rewrite Hd' in He; injection He as <-; exact (proj1 (Mk d D Ie Hd) (fun X => X))|]. rewrite Ho in He by auto. exact (proj1 (Mk e De Ie He) (fun X => X)).
Qed.
Lemma R_mono pd s L LD a na nc nc' : R pd s L LD a na nc -> nc <= nc' -> R pd s L LD a na nc'.
Proof.
  intros [Rdok Rcnt Rown Rald Rld Rnd Rin Rout Rpd Rinj Renv Rfr Raenv Rcur Rdb Rcount] Hn. constructor; auto. intros d D Hd. specialize (Rcnt d D Hd). lia.
Qed.
Definition push (a : ast) (p : nat) (k : kind) (l : list entry) : ast := match l with [] => a | _ => Ast (db a) (count a) (AScan p k l (aenv a) :: astk a) (aenv a) None end.
Lemma map_filter_ent {A B} (g : A -> B) (q : B -> bool) l : filter q (map g l) = map g (filter (fun x => q (g x)) l).
Proof. induction l as [|x l IH]; [reflexivity|]. cbn. destruct (q (g x)); cbn; congruence. Qed.
Lemma scan_pred_ok MC MS pd s L LD a na nc p d ar k : R pd s L LD a na nc -> mk s LD [] -> cur s = None -> pd p = Some d -> na < 2 ^ 31 -> nc < 2 ^ 64 - 2 ->
  exists x s' L' LD', Scan_Dynamic_Pred MC MS s d ar k = Ret (x, s') /\ mk s' LD' [] /\ rest3 s' = (nextc s, nextd s, pdyn s, stk s', env s, None) /\
    match filter (given ar) (db a p) with
    | [] => x = None /\ R pd s' L' LD' a na (nc + 1)
    | e :: l => exists x0 c0, x = Some x0 /\ e = ent (cls s') x0 /\ cls s' x0 = Some c0 /\ c_dyn c0 = d /\ R pd s' L' LD' (push a p k l) na (nc + 1)
    end.
Proof.
  intros H Mk Hcur Hp Hna Hnc. unfold Scan_Dynamic_Pred.
  destruct (gc_ok MC MS pd s L LD a na nc H Mk Hcur) as [s1 [L1 [LD1 [E1 [H1 [Mk1 R1]]]]]]. rewrite E1. cbn [bind]. unfold rest3 in R1. injection R1 as X1 X2 X3 X4 X5 X6.
  destruct (r_pd _ _ _ _ _ _ _ H1 p d Hp) as [D Hd]. unfold getd. rewrite Hd. cbn [bind].
  pose proof (r_cnt _ _ _ _ _ _ _ H1 d D Hd) as Cn. rewrite Z.mod_small by lia.
  destruct (stamp_ok pd s1 L1 LD1 a na nc d D H1 Mk1 ltac:(congruence) Hd) as [H2 Mk2]. set (s2 := putd s1 d _) in *. set (D2 := set_stamp D (curr_stamp D + 1)) in *.
  assert (Hd2 : dyns s2 d = Some D2) by (cbn; apply upd_eq).
  pose proof (r_dok _ _ _ _ _ _ _ H1 d D Hd) as K1. pose proof (r_dok _ _ _ _ _ _ _ H2 d D2 Hd2) as K2.
  set (sc0 := match Index_From_First_Arg ar with None => _ | Some _ => _ end).
  destruct (init_scok (cls s1) d D (L1 d) ar sc0 K1) as [kx [sx [sv [S0 Sd0]]]]; [unfold ALIVE; lia|reflexivity|]. fold D2 in S0. change (cls s1) with (cls s2) in S0.
  assert (Edb : filter (given ar) (db a p) = map (ent (cls s2)) (filter (fun x => given ar (ent (cls s2) x)) (filter (live (cls s2)) (L1 d)))).
  { rewrite (r_db _ _ _ _ _ _ _ H2), Hp. cbn [dbof]. apply map_filter_ent. }
  rewrite Edb. set (rt := filter _ (filter _ _)) in *. clearbody sc0 rt.
  assert (Lt : forall x, In x (L1 d) -> (x < nextc s2)%nat) by (intros x Hx; exact (cls_lt pd s2 L1 LD1 a na (nc + 1) d D2 x H2 Hd2 Hx)).
  assert (Hz : count_z D2 < 2 ^ 31) by (unfold D2; cbn [count_z set_stamp]; lia).
  destruct (scan_next_ok s2 d D2 (L1 d) sc0 kx sx sv rt K2 Lt S0 Hz) as [sc1 [n1 [E2 [Sd1 P1]]]]. rewrite E2. cbn [bind].
  destruct rt as [|x rt]; cbn [hd_error map].
  { exists None, (with_longest s2 n1), L1, LD1. split; [reflexivity|]. split; [apply (mk_rest s2); auto|]. split; [unfold rest3; cbn; congruence|]. split; [reflexivity|]. now apply R_longest. }
  destruct P1 as [_ [Ix [sx1 [sv1 S1]]]]. set (s3 := with_longest s2 n1).
  destruct (scan_next_ok s3 d D2 (L1 d) sc1 kx sx1 sv1 rt K2 Lt S1 Hz) as [sc2 [n2 [E3 [Sd2 P2]]]]. rewrite E3. cbn [bind]. set (s4 := with_longest s3 n2).
  assert (H4 : R pd s4 L1 LD1 a na (nc + 1)) by (apply R_longest, R_longest, H2).
  destruct (k_cl _ _ _ _ _ K2 x Ix) as [c0 [Hc0 [Hcd _]]].
  destruct rt as [|y rt]; cbn [hd_error map push].
  { exists (Some x), s4, L1, LD1. split; [reflexivity|]. split; [apply (mk_rest s2); auto|]. split; [unfold rest3; cbn; congruence|]. exists x, c0. split; [reflexivity|]. split; [reflexivity|]. split; [exact Hc0|]. split; [exact Hcd|exact H4]. }
  destruct P2 as [Sc2 [Iy [sx2 [sv2 S2]]]]. exists (Some x). eexists. exists L1, LD1. split; [reflexivity|]. split; [apply (mk_rest s2); auto|]. split; [unfold rest3; cbn; congruence|]. exists x, c0. split; [reflexivity|]. split; [reflexivity|]. split; [exact Hc0|]. split; [exact Hcd|].
  pose proof H4 as [Rdok Rcnt Rown Rald Rld Rnd Rin Rout Rpd Rinj Renv Rfr Raenv Rcur Rdb Rcount].
  apply (R_stk pd s4 L1 LD1 a na (nc + 1)); auto.
  - constructor; [|exact Rfr]. cbn [frel]. split; [reflexivity|]. split; [exact Raenv|]. rewrite Sd2, Sd1, Sd0. split; [intros q Hq; exact (Rinj q p d Hq Hp)|]. exists D2, y, kx, sx2, sv2, rt. split; [exact Hd2|]. split; [exact Sc2|]. split; [exact Iy|]. split; [reflexivity|exact S2].
  - intros z Hz'. apply Renv. cbn [flat_map frame_env] in Hz'. apply in_app_iff in Hz'. rewrite in_app_iff in Hz'. apply in_app_iff. tauto.
  - cbn. replace (cur s1) with (@None nat) by congruence. reflexivity.
  - cbn. intros z E. congruence.
  - intros sc e0 [E|E]; [|left; exists sc, e0; auto]. injection E as _ <- _. right. exists p. rewrite Sd2, Sd1, Sd0. exact Hp.
Qed.

(** ** Steps *)
Lemma F2_cons {A B} (P : A -> B -> Prop) x y l m : Forall2 P (x :: l) (y :: m) -> P x y /\ Forall2 P l m.
Proof. intros H. inversion H. auto. Qed.
Definition Inv (s : st) (a : ast) (na nc : Z) : Prop := exists L LD, R (pdyn s) s L LD a na nc /\ mk s LD [].
Lemma found_ok MC MS s L LD a na nc p x c k u : R (pdyn s) s L LD a na nc -> mk s LD [] -> cur s = None -> cls s x = Some c -> nc < 2 ^ 64 - 1 ->
  (k = KRetract -> forall D, In (c_dyn c) LD -> dyns s (c_dyn c) = Some D -> exact_er (cls s) (e_base (d_erased D)) (L (c_dyn c))) ->
  exists s', found MC MS s x k u = Ret (Some (shown (ent (cls s) x)), s') /\ Inv s' (afound a p (ent (cls s) x) k u) na nc.
Proof.
  intros H Mk Hcur Hx Hnc Hex. unfold found, getc. rewrite Hx. cbn [bind]. assert (Es : Some (c_arg c, c_data c) = Some (shown (ent (cls s) x))) by (unfold shown, ent; now rewrite Hx). rewrite Es.
  destruct k; cbn [afound].
  - exists s. split; [reflexivity|]. exists L, LD. auto.
  - destruct u; [|exists s; split; [reflexivity|exists L, LD; auto]].
    destruct (delete_ok MC MS (pdyn s) s L LD a na nc x c H Mk Hcur Hx Hnc (Hex eq_refl)) as [s' [L' [LD' [A [B [C D]]]]]]. rewrite A. cbn [bind]. exists s'. split; [reflexivity|]. exists L', LD'. split; [|exact C].
    unfold rest3 in D. injection D as D1 D2 D3 D4 D5 D6. rewrite D3. rewrite eid_ent. exact B.
  - eexists. split; [reflexivity|]. exists L, LD. split; [|apply (mk_rest s); auto]. pose proof H as [Rdok Rcnt Rown Rald Rld Rnd Rin Rout Rpd Rinj Renv Rfr Raenv Rcur Rdb Rcount].
    apply (R_stk (pdyn s) s L LD a na nc); auto.
    + intros y [= <-]. congruence.
    + intros sc e0 I. left. exists sc, e0. auto.
Qed.
Definition is_assert (o : op) : Z := match o with Assert _ _ _ _ _ => 1 | _ => 0 end.
Definition is_call (o : op) : Z := match o with Call _ _ _ _ => 1 | _ => 0 end.
Lemma step_ok MC MS s a na nc o : Inv s a na nc -> 0 <= na -> 0 <= nc -> na + is_assert o < 2 ^ 31 -> nc + is_call o < 2 ^ 64 - 1 -> match o with Erase_Pred p => no_retract p a | _ => True end ->
  exists s', step MC MS s o = Ret (fst (astep a o), s') /\ Inv s' (snd (astep a o)) (na + is_assert o) (nc + is_call o).
Proof.
  intros [L [LD [H0 Mk0]]] Hna Hnc Ba Bc Hal. unfold step, astep. set (c0 := cur s).
  set (s1 := with_stk s (stk s) (env s) None). set (a1 := Ast (db a) (count a) (astk a) (aenv a) None).
  assert (H : R (pdyn s1) s1 L LD a1 na nc).
  { pose proof H0 as [Rdok Rcnt Rown Rald Rld Rnd Rin Rout Rpd Rinj Renv Rfr Raenv Rcur Rdb Rcount]. apply (R_stk (pdyn s) s L LD a na nc); auto; [discriminate|]. intros sc e0 I. left. exists sc, e0. auto. }
  assert (Mk : mk s1 LD []) by (apply (mk_rest s); auto). assert (Hcur : cur s1 = None) by reflexivity.
  pose proof H as [Rdok Rcnt Rown Rald Rld Rnd Rin Rout Rpd Rinj Renv Rfr Raenv Rcur Rdb Rcount].
  assert (Ret1 : forall sc e0, In (FScan KRetract sc e0) (stk s1) -> retracting (pdyn s1) s1 (s_dyn sc)) by (intros sc e0 I; left; exists sc, e0; auto).
  assert (Triv : exists s', Ret (@None (arg * nat), s1) = Ret (fst (@None (arg * nat), a1), s') /\ Inv s' (snd (@None (arg * nat), a1)) (na + 0) (nc + 0)) by (exists s1; split; [reflexivity|]; rewrite !Z.add_0_r; exists L, LD; auto).
  destruct o as [p front ar data file|p ar k u|u| | |n| | | |p]; cbn [is_assert is_call] in *.
  - (* Assert *)
    rewrite add_at_eq. unfold the_dyn. rewrite Z.add_0_r. change (pdyn s1) with (pdyn s) in *. destruct (pdyn s p) as [d|] eqn:Ep.
    + destruct (Rpd p d Ep) as [D Hd]. destruct (add_ok_R (pdyn s) s1 L LD a1 na nc p d D front ar data file H Mk Hcur Ep Hd ltac:(lia)) as [s' [L' [A [B [C E]]]]]. rewrite A. cbn [bind]. exists s'. split; [reflexivity|]. exists L', LD. rewrite B. split; [exact E|exact C].
    + pose proof (R_new (pdyn s) s1 L LD a1 na nc p H Ep Hna Hnc) as H2. cbv zeta in H2. set (d := nextd s1) in *. set (s2 := St _ _ _ _ _ _ _ _ _ _ _) in H2.
      match goal with |- context [add_at ?x d] => change x with s2 end.
      destruct (add_ok_R (upd (pdyn s) p (Some d)) s2 (upd L d []) LD a1 na nc p d new_dyn front ar data file H2) as [s' [L' [A [B [C E]]]]]; try reflexivity; try (cbn; apply upd_eq); try lia.
      { intros e De Ie He. split; [|intros []]. intros _. destruct Rld as [_ Rl]. destruct (dseg_in _ _ _ _ Rl Ie) as [D1 HD1]. pose proof (Rald e D1 HD1) as HL. assert (E : dyns s2 e = dyns s1 e) by (apply upd_neq; unfold d in *; lia). rewrite E in He. exact (proj1 (Mk e De Ie He) (fun X => X)). }
      rewrite A. cbn [bind]. exists s'. split; [reflexivity|]. exists L', LD. rewrite B. split; [exact E|exact C].
  - (* Call *)
    rewrite Z.add_0_r. change (db a1 p) with (db a p) in *. destruct (pdyn s1 p) as [d|] eqn:Ep.
    2:{ change (db a p) with (db a1 p). rewrite Rdb, Ep. cbn. exists s1. split; [reflexivity|]. exists L, LD. split; [|exact Mk]. apply (R_mono _ _ _ _ _ _ nc); [exact H|lia]. }
    destruct (scan_pred_ok MC MS (pdyn s1) s1 L LD a1 na nc p d ar k H Mk Hcur Ep ltac:(lia) ltac:(lia)) as [x [s2 [L2 [LD2 [E2 [Mk2 [R2 P]]]]]]]. rewrite E2. cbn [bind]. unfold rest3 in R2. injection R2 as X1 X2 X3 X5 X6. change (pdyn s2 = pdyn s1) in X3.
    change (db a1 p) with (db a p) in P. destruct (filter (given ar) (db a p)) as [|e l].
    + destruct P as [-> P]. exists s2. split; [reflexivity|]. exists L2, LD2. rewrite X3. split; [exact P|exact Mk2].
    + destruct P as [x0 [cc [-> [-> [Hc [Hd P]]]]]]. change (match l with [] => a1 | _ => _ end) with (push a1 p k l). rewrite <- X3 in P. cbn [fst snd].
      apply (found_ok MC MS s2 L2 LD2 (push a1 p k l) na (nc + 1) p x0 cc k u P Mk2 X6 Hc ltac:(lia)).
      intros _ D Id HD. apply (retracting_exact (pdyn s2) s2 L2 LD2 (push a1 p k l) na (nc + 1)); auto. right. exists p. rewrite X3, Hd. exact Ep.
  - (* Redo *)
    rewrite !Z.add_0_r in *. destruct (stk s1) as [|fr l] eqn:Es, (astk a1) as [|af al] eqn:Eaa; try (exfalso; now inversion Rfr); [|apply F2_cons in Rfr; destruct Rfr as [Ff Fl]].
    + exists s1. split; [reflexivity|]. exists L, LD. auto.
    + destruct fr as [e|k sc e], af as [e'|p k' ll e']; try contradiction.
      * exists s1. split; [reflexivity|]. exists L, LD. auto.
      * destruct Ff as [-> [Ee [Q [D [x [kx [sx [sv [rt [Hd [Sx [Ix [-> Sc]]]]]]]]]]]]]. cbn [map]. rewrite Sx.
        assert (Cz : count_z D < 2 ^ 31) by (pose proof (Rcnt _ D Hd); lia).
        destruct (scan_next_ok s1 (s_dyn sc) D (L (s_dyn sc)) sc kx sx sv rt (Rdok _ D Hd)) as [sc' [n [E2 [Sd P]]]]; auto.
        { intros y Hy. exact (cls_lt (pdyn s1) s1 L LD a1 na nc (s_dyn sc) D y H Hd Hy). }
        rewrite E2. cbn [bind fst snd]. destruct (k_cl _ _ _ _ _ (Rdok _ D Hd) x Ix) as [c [Hx [Hcd _]]].
        set (s2 := with_longest s1 n). set (a2 := Ast _ _ _ _ _). set (s3 := with_stk s2 _ _ _).
        assert (Envs : forall y, In y (e ++ e ++ flat_map frame_env l) -> cls s y <> None). { intros y Hy. apply Renv. rewrite !in_app_iff in *. cbn. rewrite in_app_iff. tauto. }
        assert (H3 : R (pdyn s3) s3 L LD a2 na nc).
        { apply (R_stk (pdyn s2) s2 L LD a1 na nc); auto; [apply R_longest, H| | | |].
          - destruct rt as [|y rt]; cbn [hd_error map]; [exact Fl|]. destruct P as [Sc' [Iy [sx' [sv' S']]]]. constructor; [|exact Fl]. cbn [frel]. split; [reflexivity|]. split; [exact Ee|]. rewrite Sd. split; [exact Q|]. exists D, y, kx, sx', sv', rt. auto.
          - intros y Hy. apply Envs. rewrite !in_app_iff in *. destruct (hd_error rt); cbn in Hy; rewrite ?in_app_iff in Hy; tauto.
          - discriminate.
          - intros sc1 e1 I. left. assert (I' : In (FScan KRetract sc1 e1) l \/ k = KRetract /\ s_dyn sc1 = s_dyn sc). { destruct (hd_error rt); [destruct I as [I|I]|]; [|now left|now left]. injection I as -> <- _. auto. }
            cbn [stk s2 with_longest]. rewrite Es. destruct I' as [I'|[-> I']]; [exists sc1, e1; split; [now right|reflexivity]|]. exists sc, e. split; [now left|auto]. }
        apply (found_ok MC MS s3 L LD a2 na nc p x c k u H3); [apply (mk_rest s1); auto|reflexivity|exact Hx|lia|]. intros -> D1 Id HD1. apply (retracting_exact (pdyn s1) s1 L LD a1 na nc); auto. left. exists sc, e. rewrite Es. split; [now left|congruence].
  - (* Other *)
    rewrite !Z.add_0_r in *. eexists. split; [reflexivity|]. exists L, LD. split; [|apply (mk_rest s1); auto]. apply (R_stk (pdyn s1) s1 L LD a1 na nc); auto.
    + intros y Hy. apply Renv. cbn in Hy. rewrite !in_app_iff in *. tauto.
    + discriminate.
    + intros sc e0 [I|I]; [discriminate|eauto].
  - (* Back *)
    rewrite !Z.add_0_r in *. destruct (stk s1) as [|fr l] eqn:Es, (astk a1) as [|af al] eqn:Eaa; try (exfalso; now inversion Rfr); [|apply F2_cons in Rfr; destruct Rfr as [Ff Fl]].
    + exists s1. split; [reflexivity|]. exists L, LD. auto.
    + destruct fr as [e|k sc e], af as [e'|p k' ll e']; try contradiction.
      * eexists. split; [reflexivity|]. exists L, LD. split; [|apply (mk_rest s1); auto]. apply (R_stk (pdyn s1) s1 L LD a1 na nc); auto.
        -- intros y Hy. apply Renv. apply in_app_iff. right. exact Hy.
        -- discriminate.
        -- intros sc e0 I. apply (Ret1 sc e0). now right.
      * exists s1. split; [reflexivity|]. exists L, LD. auto.
  - (* Cut *)
    rewrite !Z.add_0_r in *. eexists. split; [reflexivity|]. exists L, LD. split; [|apply (mk_rest s1); auto].
    assert (Sk : forall fr, In fr (skipn n (stk s1)) -> In fr (stk s1)) by (intros fr I; rewrite <- (firstn_skipn n (stk s1)); apply in_or_app; now right).
    apply (R_stk (pdyn s1) s1 L LD a1 na nc); auto.
    + revert Rfr. change (astk a) with (astk a1). generalize (stk s1) (astk a1). clear. induction n as [|n IH]; intros l m F; [exact F|]. destruct F; [constructor|]. cbn. apply IH. assumption.
    + intros y Hy. apply Renv. apply in_app_iff in Hy. apply in_app_iff. destruct Hy as [Hy|Hy]; [now left|right]. apply in_flat_map in Hy. destruct Hy as [fr [A B]]. apply in_flat_map. exists fr. auto.
    + discriminate.
    + intros sc e0 I. apply (Ret1 sc e0). auto.
  - (* Enter *)
    rewrite !Z.add_0_r in *. destruct (r_cur _ _ _ _ _ _ _ H0) as [Rc1 Rc2]. fold c0 in Rc1, Rc2. rewrite Rc1. destruct c0 as [x|]; cbn [option_map]; [|exists s1; split; [reflexivity|]; exists L, LD; auto].
    eexists. split; [reflexivity|]. exists L, LD. split; [|apply (mk_rest s1); auto]. apply (R_stk (pdyn s1) s1 L LD a1 na nc); auto.
    + intros y [<-|Hy]; [exact (Rc2 x eq_refl)|]. apply Renv. exact Hy.
    + cbn [map]. change (aenv a1) with (aenv a) in *. now rewrite Raenv.
    + discriminate.
  - (* Leave *)
    rewrite !Z.add_0_r in *. eexists. split; [reflexivity|]. exists L, LD. split; [|apply (mk_rest s1); auto]. apply (R_stk (pdyn s1) s1 L LD a1 na nc); auto.
    + intros y Hy. apply Renv. apply in_app_iff in Hy. apply in_app_iff. destruct Hy as [Hy|Hy]; [left|now right]. destruct (env s1); [destruct Hy|now right].
    + change (aenv a1) with (aenv a) in *. rewrite Raenv. destruct (env s1); reflexivity.
    + discriminate.
  - (* Run *)
    rewrite !Z.add_0_r in *. change (aenv a1) with (aenv a) in *. rewrite Raenv. destruct (env s1) as [|x e] eqn:Ee; cbn [map].
    + exists s1. split; [reflexivity|]. exists L, LD. auto.
    + assert (Hx : cls s1 x <> None) by (apply Renv; now left). unfold getc. destruct (cls s1 x) as [c|] eqn:Hc; [|now elim Hx]. cbn [bind]. exists s1. split; [cbn; unfold shown, ent; change (cls s) with (cls s1); now rewrite Hc|]. exists L, LD. auto.
  - (* Erase_Pred *)
    rewrite !Z.add_0_r in *. unfold Update_Dynamic_Pred. destruct (pdyn s1 p) as [d|] eqn:Ep.
    + destruct (Rpd p d Ep) as [D Hd]. pose proof (R_detach (pdyn s1) s1 L LD a1 na nc p H) as H2. set (a2 := Ast (upd (db a1) p []) _ _ _ _) in H2.
      destruct (erase_all_ok MC MS (upd (pdyn s1) p None) s1 L LD a2 na nc d D H2 Mk Hcur Hd) as [s2 [L2 [LD2 [A [B [C E]]]]]].
      { split.
        - intros q. destruct (Nat.eq_dec q p) as [->|N]; [rewrite upd_eq; discriminate|]. rewrite upd_neq by auto. intros X. apply N. exact (Rinj q p d X Ep).
        - intros sc e I X. destruct (Forall2_in_l _ _ _ _ Rfr I) as [af [Ia Fa]]. destruct af as [|p' k' l' e']; [destruct Fa|]. destruct Fa as [-> [_ [Q _]]]. rewrite X in Q. rewrite <- (Q p Ep) in Ia. exact (Hal _ _ _ Ia eq_refl). }
      rewrite A. cbn [bind]. eexists. split; [reflexivity|]. unfold rest3 in E. injection E as Y1 Y2 Y3 Y4 Y5 Y6. exists L2, LD2. split; [|apply (mk_rest s2); auto]. cbn [pdyn with_pdyn]. rewrite Y3. destruct B. constructor; auto.
    + cbn [bind]. exists s1. split; [reflexivity|]. exists L, LD. split; [|exact Mk]. apply (R_db_ext _ _ _ _ a1); auto. intros q. cbn. destruct (Nat.eq_dec q p) as [->|N]; [rewrite upd_eq; change (db a p) with (db a1 p); now rewrite Rdb, Ep|now rewrite upd_neq].
Qed.
Lemma start_inv : Inv start astart 0 0.
Proof.
  exists (fun _ => []), []. split; [|intros d D []]. constructor; cbn; try reflexivity; try (intros; discriminate); try (now constructor); try (intros ? []).
Qed.
Theorem steps_ok MC MS : forall l s a na nc, Inv s a na nc -> allowed a l -> 0 <= na -> 0 <= nc -> na + asserts l < 2 ^ 31 -> nc + calls l < 2 ^ 64 - 1 ->
  exists s', steps MC MS s l = Ret (fst (asteps a l), s') /\ Inv s' (snd (asteps a l)) (na + asserts l) (nc + calls l).
Proof.
  induction l as [|o l IH]; intros s a na nc H Al Hna Hnc Ba Bc.
  - exists s. split; [reflexivity|]. cbn. now rewrite !Z.add_0_r.
  - destruct Al as [Al1 Al2]. assert (Ea : asserts (o :: l) = is_assert o + asserts l) by (unfold asserts; destruct o; cbn [filter length is_assert]; lia).
    assert (Ec : calls (o :: l) = is_call o + calls l) by (unfold calls; destruct o; cbn [filter length is_call]; lia).
    assert (0 <= asserts l) by (unfold asserts; lia). assert (0 <= calls l) by (unfold calls; lia).
    assert (0 <= is_assert o) by (destruct o; cbn; lia). assert (0 <= is_call o) by (destruct o; cbn; lia).
    destruct (step_ok MC MS s a na nc o H Hna Hnc ltac:(lia) ltac:(lia) Al1) as [s1 [E1 HI1]].
    destruct (IH s1 (snd (astep a o)) (na + is_assert o) (nc + is_call o) HI1 Al2) as [s2 [E2 HI2]]; try lia.
    exists s2. cbn [steps asteps]. rewrite E1. cbn [bind snd fst]. rewrite E2. cbn [bind snd fst]. split; [reflexivity|]. rewrite Ea, Ec. now rewrite !Z.add_assoc.
Qed.
