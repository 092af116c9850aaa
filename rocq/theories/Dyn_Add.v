(** Adding a clause. *)
Require Import ZArith List Bool Lia Arith Sorted.
Require Import Verif.Heap_Model Verif.Dyn_Model Verif.Dyn_Chain Verif.Dyn_Inv.
Import ListNotations.
Open Scope Z_scope.

Definition add_at (s : st) (d : nat) (asserta : bool) (a : arg) (data : nat) (file : Z) : outcome st :=
  let key := Index_From_First_Arg a in
  do D <- getd s d;
  let x := nextc s in
  let no := if asserta then count_a D else count_z D in
  do n <- ck_int (if asserta then count_a D - 1 else count_z D + 1);
  let c := Clause (Cell None None) (Cell None None) d key no file ALIVE e_null a data in
  let s := St (upd (cls s) x (Some c)) (S x) (dyns s) (nextd s) (pdyn s) (fdyn s) (longest s) (nb_erased s) (stk s) (env s) (cur s) in
  do s <- Add_To_2Chain s d Seq x asserta;
  do D <- getd s d;
  let s := putd s d (if asserta then set_counts D n (count_z D) else set_counts D (count_a D) n) in
  match key with
  | None => Ret s
  | Some k =>
    do D <- getd s d;
    let s := match d_hd D k with Some _ => s | None => putd s d (set_hd D k (Some (Hdr None None None))) end in
    Add_To_2Chain s d k x asserta
  end.
Lemma add_at_eq s p front a data file : Add_Dynamic_Clause s p front a data file = (let '(s, d) := the_dyn s p in add_at s d front a data file).
Proof. reflexivity. Qed.

Definition simc (c c' : clause) : Prop := attr c' = attr c /\ c_stamp c' = c_stamp c /\ c_nexte c' = c_nexte c /\ c_file c' = c_file c.
Lemma simc_trans a b c : simc a b -> simc b c -> simc a c.
Proof. intros [A [B [C D]]] [E [F [G H]]]. repeat split; congruence. Qed.
Lemma recell_simc k c c' : recell k c c' -> simc c c'.
Proof. exact (recell_attr k c c'). Qed.
Definition ins (front : bool) (x : nat) (l : list nat) : list nat := if front then x :: l else l ++ [x].
Lemma in_ins front x l y : In y (ins front x l) <-> y = x \/ In y l.
Proof. unfold ins. destruct front; [cbn; intuition|]. rewrite in_app_iff. cbn. intuition. Qed.
Lemma scan_ins f h h' (x : nat) l (front : bool) : scan_ok f h l -> h_scan h' = match l with [] => Some x | _ => if front then Some x else h_scan h end -> scan_ok f h' (ins front x l).
Proof.
  intros [pre [suf [-> [A [B C]]]]] E. unfold ins. destruct front.
  - exists [], (x :: pre ++ suf). split; [reflexivity|]. split; [rewrite E; now destruct (pre ++ suf)|]. split; [intros ? []|auto].
  - destruct suf as [|y suf].
    + rewrite (C eq_refl) in *. cbn in *. exists [], [x]. repeat split; auto.
    + exists pre, ((y :: suf) ++ [x]). split; [now rewrite app_assoc|]. split; [rewrite E, A; now destruct pre|]. split; [exact B|]. destruct suf; discriminate.
Qed.

Lemma add_at_ok s d D l front a data file : dyns s d = Some D -> dok scan_ok (cls s) d D l -> cls s (nextc s) = None ->
  - 2 ^ 31 < count_a D -> count_a D < 0 -> 0 <= count_z D -> count_z D < 2 ^ 31 - 1 ->
  let x := nextc s in
  exists s' D', add_at s d front a data file = Ret s' /\ nextc s' = S x /\
    (nextd s', pdyn s', fdyn s', longest s', nb_erased s', stk s', env s', cur s') = (nextd s, pdyn s, fdyn s, longest s, nb_erased s, stk s, env s, cur s) /\
    (forall e, dyns s' e = upd (dyns s) d (Some D') e) /\ d_erased D' = d_erased D /\ d_next D' = d_next D /\ curr_stamp D' = curr_stamp D /\
    count_a D' = (if front then count_a D - 1 else count_a D) /\ count_z D' = (if front then count_z D else count_z D + 1) /\
    dok scan_ok (cls s') d D' (ins front x l) /\
    (exists c, cls s' x = Some c /\ attr c = (d, Index_From_First_Arg a, (if front then count_a D else count_z D), a, data) /\ c_stamp c = ALIVE) /\
    (forall y, y <> x -> ~ In y l -> cls s' y = cls s y) /\ (forall y c, y <> x -> cls s y = Some c -> exists c', cls s' y = Some c' /\ simc c c').
Proof.
  intros Hd K Fx Ba Ba0 Bz0 Bz x. pose proof K as [KC KS KQ KH].
  assert (Nx : ~ In x l). { intros H. destruct (KC _ H) as [c [E _]]. unfold x in E. congruence. }
  unfold add_at, getd at 1. rewrite Hd. cbn [bind].
  assert (Ck : ck_int (if front then count_a D - 1 else count_z D + 1) = Ret (if front then count_a D - 1 else count_z D + 1)).
  { unfold ck_int. destruct front; (replace (- 2 ^ 31 <=? _) with true by (symmetry; apply Z.leb_le; lia)); (replace (_ <? 2 ^ 31) with true by (symmetry; apply Z.ltb_lt; lia)); reflexivity. }
  rewrite Ck. cbn [bind]. fold x. clear Ck.
  remember (Index_From_First_Arg a) as key eqn:Ekey. set (num := if front then count_a D else count_z D).
  set (c0 := Clause (Cell None None) (Cell None None) d key num file ALIVE e_null a data).
  set (s0 := St (upd (cls s) x (Some c0)) (S x) (dyns s) (nextd s) (pdyn s) (fdyn s) (longest s) (nb_erased s) (stk s) (env s) (cur s)).
  assert (C0 : forall y, y <> x -> cls s0 y = cls s y) by (intros y N; cbn; now apply upd_neq).
  assert (C0x : cls s0 x = Some c0) by (cbn; now rewrite upd_eq).
  assert (NI : forall y, In y l -> y <> x) by (intros y Hy ->; contradiction).
  assert (K0 : dok scan_ok (cls s0) d D l). { apply (dok_ext scan_ok (cls s) _ d D D); auto using scan_ok_ext; lia. }
  destruct K0 as [KC0 KS0 KQ0 KH0].
  pose proof (KH0 Seq) as HS. unfold chk in HS. destruct (d_hd D Seq) as [h|] eqn:Hh; [|now elim KQ]. cbn [sub] in HS. destruct HS as [HS1 HS2].
  destruct (add_ok s0 d Seq x front D h l c0 Hd Hh (srt_nodup _ _ KS) HS1 C0x Nx) as [s1 [h1 [E1 [R1 [Dy1 [C1 [C1' [Ch1 Sc1]]]]]]]].
  rewrite E1. cbn [bind]. unfold getd at 1. rewrite Dy1, upd_eq. cbn [bind].
  set (D2 := if front then set_counts _ _ _ else _). set (s2 := putd s1 d D2).
  assert (D2h : forall k, d_hd D2 k = d_hd (set_hd D Seq (Some h1)) k) by (intros k; subst D2; now destruct front).
  assert (D2a : count_a D2 = if front then count_a D - 1 else count_a D) by (subst D2; now destruct front).
  assert (D2z : count_z D2 = if front then count_z D else count_z D + 1) by (subst D2; now destruct front).
  assert (D2r : curr_stamp D2 = curr_stamp D /\ d_erased D2 = d_erased D /\ d_next D2 = d_next D) by (subst D2; now destruct front).
  clearbody D2.
  assert (Rs : forall s', rest s' = rest s0 -> nextc s' = S x /\ (nextd s', pdyn s', fdyn s', longest s', nb_erased s', stk s', env s', cur s') = (nextd s, pdyn s, fdyn s, longest s, nb_erased s, stk s, env s, cur s)).
  { intros s' R. unfold rest in R. cbn in R. injection R as -> -> -> -> -> -> -> -> ->. split; reflexivity. }
  assert (Sim1 : forall y c, cls s0 y = Some c -> exists c', cls s1 y = Some c' /\ simc c c').
  { intros y c Hy. destruct (C1' y c Hy) as [c' [A B]]. exists c'. split; [exact A|eapply recell_simc; eauto]. }
  assert (Liv : forall f, (forall y c, cls s0 y = Some c -> exists c', f y = Some c' /\ simc c c') -> forall y, In y (ins front x l) -> same1 (cls s0) f y).
  { intros f Hf y Hy. assert (exists c, cls s0 y = Some c) as [c Hc]. { apply in_ins in Hy. destruct Hy as [->|Hy]; [eauto|]. destruct (KC0 y Hy) as [c [Hc _]]. eauto. }
    destruct (Hf y c Hc) as [c' [A [B [C _]]]]. exists c, c'. auto. }
  assert (Num : forall y, In y l -> count_a D < no (cls s0) y < count_z D). { intros y Hy. destruct (KC0 y Hy) as [c [A [_ [B _]]]]. unfold no. now rewrite A. }
  assert (Nox : no (cls s0) x = num) by (unfold no; rewrite C0x; reflexivity).
  assert (Srt0 : srt (cls s0) (ins front x l)).
  { unfold ins. subst num. destruct front.
    - apply srt_cons. split; [exact KS0|]. intros y Hy. specialize (Num y Hy). lia.
    - apply srt_app. split; [exact KS0|]. split; [constructor; constructor|]. intros y z Hy [<-|[]]. specialize (Num y Hy). lia. }
  (* what remains to be shown of a final state *)
  assert (Fin : forall s' D', rest s' = rest s0 -> (forall e, dyns s' e = upd (dyns s) d (Some D') e) -> drest D' = drest D2 -> d_hd D' Seq <> None ->
     (forall y c, cls s0 y = Some c -> exists c', cls s' y = Some c' /\ simc c c') -> (forall y, y <> x -> ~ In y l -> cls s' y = cls s y) ->
     (forall k, chk scan_ok (cls s') D' k (sub (cls s') k (ins front x l))) ->
     exists s'' D', Ret s' = Ret s'' /\ nextc s'' = S x /\
    (nextd s'', pdyn s'', fdyn s'', longest s'', nb_erased s'', stk s'', env s'', cur s'') = (nextd s, pdyn s, fdyn s, longest s, nb_erased s, stk s, env s, cur s) /\
    (forall e, dyns s'' e = upd (dyns s) d (Some D') e) /\ d_erased D' = d_erased D /\ d_next D' = d_next D /\ curr_stamp D' = curr_stamp D /\
    count_a D' = (if front then count_a D - 1 else count_a D) /\ count_z D' = (if front then count_z D else count_z D + 1) /\
    dok scan_ok (cls s'') d D' (ins front x l) /\
    (exists c, cls s'' x = Some c /\ attr c = (d, key, num, a, data) /\ c_stamp c = ALIVE) /\
    (forall y, y <> x -> ~ In y l -> cls s'' y = cls s y) /\ (forall y c, y <> x -> cls s y = Some c -> exists c', cls s'' y = Some c' /\ simc c c')).
  { intros s' D' R Dy DR Q Sim Out Ch. exists s', D'. destruct (Rs _ R) as [A B]. unfold drest in DR. injection DR as DR1 DR2 DR3 DR4 DR5. destruct D2r as [D2r1 [D2r2 D2r3]].
    split; [reflexivity|]. split; [exact A|]. split; [exact B|]. split; [exact Dy|]. split; [congruence|]. split; [congruence|]. split; [congruence|]. split; [congruence|]. split; [congruence|]. split.
    - constructor; auto.
      + intros y Hy. destruct (Liv (cls s') Sim y Hy) as [c [c' [E [F [G I]]]]]. exists c'. split; [exact F|]. rewrite (attr_dyn _ _ G), (attr_no _ _ G), (attr_key _ _ G), (attr_arg _ _ G), I, DR1, DR2, DR3, D2a, D2z, D2r1.
        apply in_ins in Hy. destruct Hy as [->|Hy].
        * rewrite C0x in E. injection E as <-. cbn. split; [reflexivity|]. split; [subst num; destruct front; lia|]. split; [now left|exact Ekey].
        * destruct (KC0 y Hy) as [c1 [X1 [X2 [X3 [X4 X5]]]]]. rewrite X1 in E. injection E as <-. split; [exact X2|]. split; [destruct front; lia|]. split; [exact X4|exact X5].
      + apply (srt_ext (cls s0)); [|exact Srt0]. intros y Hy. symmetry. now apply same1_no, Liv.
    - split.
      + destruct (Sim x c0 C0x) as [c [E [F [G _]]]]. exists c. split; [exact E|]. split; [rewrite F; reflexivity|rewrite G; reflexivity].
      + split; [exact Out|]. intros y c N Hy. apply Sim. now rewrite C0. }
  assert (Sq1 : forall g, (forall y, In y (ins front x l) -> cf g Seq y = cf (cls s1) Seq y) -> (forall y, In y (ins front x l) -> same1 (cls s0) g y) -> chain_ok (cf g Seq) h1 (ins front x l) /\ scan_ok g h1 (ins front x l)).
  { intros g A B. split; [apply (chain_ext (cf (cls s1) Seq)); [intros y Hy; symmetry; now apply A|exact Ch1]|].
    apply (scan_ok_ext (cls s0)); [intros y Hy; now apply same1_live, B|]. apply (scan_ins _ h); auto. }
  assert (Dy2 : forall e, dyns s2 e = upd (dyns s) d (Some D2) e). { intros e. cbn. destruct (Nat.eq_dec e d) as [->|N]; [now rewrite !upd_eq|]. rewrite !upd_neq by auto. rewrite Dy1. now rewrite upd_neq. }
  assert (Out1 : forall y, y <> x -> ~ In y l -> cls s1 y = cls s y). { intros y N1 N2. rewrite C1 by (intros [E|E]; [congruence|contradiction]). now apply C0. }
  assert (Hk0 : forall k, k <> Seq -> has_key (cls s0) k x = match key with Some k' => chain_eqb k k' | None => false end) by (intros k _; unfold has_key; rewrite C0x; reflexivity).
  assert (Sb : forall k, k <> Seq -> sub (cls s0) k (ins front x l) = if has_key (cls s0) k x then ins front x (sub (cls s0) k l) else sub (cls s0) k l).
  { intros k Nk. assert (X : forall m, sub (cls s0) k m = filter (has_key (cls s0) k) m) by (destruct k; auto; now elim Nk). rewrite !X. unfold ins. destruct front; cbn [filter]; [now destruct (has_key (cls s0) k x)|]. rewrite filter_app. cbn [filter]. destruct (has_key (cls s0) k x); [reflexivity|now rewrite app_nil_r]. }
  assert (Sb2 : forall g k m, (forall y, In y m -> In y (ins front x l)) -> (forall y, In y (ins front x l) -> same1 (cls s0) g y) -> sub g k m = sub (cls s0) k m).
  { intros g k m I B. apply sub_ext. intros y Hy. now apply same1_key, B, I. }
  assert (Ix : In x (ins front x l)) by (apply in_ins; now left).
  assert (Il : forall y, In y l -> In y (ins front x l)) by (intros y Hy; apply in_ins; now right).
  (* chains that are not touched by the first addition *)
  assert (Ind1 : forall k y c, k <> Seq -> cls s0 y = Some c -> cf (cls s1) k y = cf (cls s0) k y).
  { intros k y c Nk Hy. destruct (C1' y c Hy) as [c' [A B]]. unfold cf. rewrite A, Hy. cbn. f_equal. apply (recell_other Seq); [exact B|]. destruct k; cbn; [now elim Nk|..]; discriminate. }
  destruct key as [k|].
  2:{ apply (Fin s2 D2); auto.
      - rewrite D2h, set_hd_eq. discriminate.
      - intros k. assert (B : forall y, In y (ins front x l) -> same1 (cls s0) (cls s2) y) by (apply (Liv (cls s1)); exact Sim1). rewrite (Sb2 (cls s2) k _ (fun y H => H) B).
        destruct (is_seq k) eqn:Q.
        + destruct k; try discriminate. unfold chk. rewrite D2h, set_hd_eq. cbn [sub]. apply Sq1; auto.
        + assert (Nk : k <> Seq) by (intros ->; discriminate). rewrite Sb by auto. rewrite Hk0 by auto.
          apply (chk_ext scan_ok (cls s0) _ D); auto using scan_ok_ext.
          * rewrite D2h. now apply set_hd_neq.
          * intros y Hy. apply sub_in in Hy. destruct (KC0 y Hy) as [c [Hc _]]. now apply (Ind1 k y c).
          * intros y Hy. apply sub_in in Hy. now apply same1_live, B, Il. }
  assert (Nk : k <> Seq). { intros ->. destruct a; discriminate. }
  unfold getd at 1. rewrite Dy2, upd_eq. cbn [bind].
  set (s3 := match d_hd D2 k with Some _ => _ | None => _ end).
  assert (P3 : exists D3 h3, d_hd D3 k = Some h3 /\ (forall e, dyns s3 e = upd (dyns s) d (Some D3) e) /\ cls s3 = cls s1 /\ rest s3 = rest s0 /\ drest D3 = drest D2 /\ (forall k', k' <> k -> d_hd D3 k' = d_hd D2 k') /\
     chain_ok (cf (cls s0) k) h3 (sub (cls s0) k l) /\ scan_ok (cls s0) h3 (sub (cls s0) k l)).
  { pose proof (KH0 k) as HK. unfold chk in HK. subst s3. rewrite D2h, set_hd_neq by auto. destruct (d_hd D k) as [h3|] eqn:H3.
    - exists D2, h3. split; [rewrite D2h, set_hd_neq by auto; exact H3|]. split; [exact Dy2|]. split; [reflexivity|]. split; [exact R1|]. split; [reflexivity|]. split; [reflexivity|exact HK].
    - destruct HK as [_ HK]. exists (set_hd D2 k (Some (Hdr None None None))), (Hdr None None None). split; [apply set_hd_eq|]. split.
      + intros e. cbn. destruct (Nat.eq_dec e d) as [->|N]; [now rewrite !upd_eq|]. rewrite !upd_neq by auto. rewrite Dy1. now rewrite upd_neq.
      + split; [reflexivity|]. split; [exact R1|]. split; [reflexivity|]. split; [intros k' N; now apply set_hd_neq|]. rewrite HK. split; [repeat split|]. exists [], []. repeat split; auto. intros ? []. }
  destruct P3 as [D3 [h3 [H3 [Dy3 [C3 [R3 [DR3 [Hh3 [Ch3 Sc3]]]]]]]]]. clearbody s3.
  destruct (Sim1 x c0 C0x) as [c3 [C3x _]]. rewrite <- C3 in C3x.
  assert (Ch3' : chain_ok (cf (cls s3) k) h3 (sub (cls s0) k l)).
  { apply (chain_ext (cf (cls s0) k)); [|exact Ch3]. intros y Hy. apply sub_in in Hy. destruct (KC0 y Hy) as [c [Hc _]]. rewrite C3. symmetry. now apply (Ind1 k y c). }
  destruct (add_ok s3 d k x front D3 h3 (sub (cls s0) k l) c3) as [s4 [h4 [E4 [R4 [Dy4 [C4 [C4' [Ch4 Sc4]]]]]]]]; auto.
  { rewrite Dy3. apply upd_eq. }
  { apply (srt_nodup (cls s0)), srt_sub, KS0. }
  { intros H. apply sub_in in H. contradiction. }
  rewrite E4.
  assert (Sim4 : forall y c, cls s0 y = Some c -> exists c', cls s4 y = Some c' /\ simc c c').
  { intros y c Hy. destruct (Sim1 y c Hy) as [c1 [A1 B1]]. rewrite <- C3 in A1. destruct (C4' y c1 A1) as [c2 [A2 B2]]. exists c2. split; [exact A2|]. eapply simc_trans; [exact B1|]. eapply recell_simc; eauto. }
  assert (B : forall y, In y (ins front x l) -> same1 (cls s0) (cls s4) y) by (apply (Liv (cls s4)); exact Sim4).
  apply (Fin s4 (set_hd D3 k (Some h4))); auto.
  - congruence.
  - intros e. rewrite Dy4. destruct (Nat.eq_dec e d) as [->|N]; [now rewrite !upd_eq|]. rewrite !upd_neq by auto. rewrite Dy3. now rewrite upd_neq.
  - rewrite set_hd_neq by auto. rewrite Hh3 by auto. rewrite D2h, set_hd_eq. discriminate.
  - intros y N1 N2. rewrite C4; [rewrite C3; now apply Out1|]. intros [E|E]; [congruence|]. apply sub_in in E. contradiction.
  - intros k'. rewrite (Sb2 (cls s4) k' _ (fun y H => H) B). destruct (is_seq k') eqn:Q.
    + destruct k'; try discriminate. unfold chk. rewrite set_hd_neq by auto. rewrite Hh3 by auto. rewrite D2h, set_hd_eq. cbn [sub]. apply Sq1; auto.
      intros y Hy. destruct (B y Hy) as [c [_ [Hc _]]]. destruct (Sim1 y c Hc) as [c1 [A1 _]]. pose proof A1 as A1'. rewrite <- C3 in A1. destruct (C4' y c1 A1) as [c2 [A2 B2]]. unfold cf. rewrite A2, A1'. cbn. f_equal. apply (recell_other k Seq); [exact B2|]. destruct k; cbn; [now elim Nk|..]; discriminate.
    + assert (Nk' : k' <> Seq) by (intros ->; discriminate). rewrite Sb by auto. rewrite Hk0 by auto. destruct (chain_eqb k' k) eqn:Ekk.
      * apply chain_eqb_eq in Ekk. subst k'. unfold chk. rewrite set_hd_eq. split; [exact Ch4|]. apply (scan_ok_ext (cls s0)).
        -- intros y Hy. apply same1_live, B. apply in_ins in Hy. apply in_ins. destruct Hy as [->|Hy]; [now left|]. apply sub_in in Hy. now right.
        -- apply (scan_ins _ h3); auto.
      * assert (Nkk : k' <> k) by (intros ->; rewrite chain_eqb_refl in Ekk; discriminate).
        apply (chk_ext scan_ok (cls s0) _ D); auto using scan_ok_ext.
        -- rewrite set_hd_neq by auto. rewrite Hh3 by auto. rewrite D2h. now apply set_hd_neq.
        -- intros y Hy. pose proof (sub_in _ _ _ _ Hy) as Hyl. destruct (KC0 y Hyl) as [c [Hc _]]. unfold cf at 1. rewrite C4.
           ++ rewrite C3. now apply (Ind1 k' y c).
           ++ intros [E|E]; [subst y; contradiction|]. assert (X : has_key (cls s0) k' y = true /\ has_key (cls s0) k y = true).
              { split; [eapply sub_key; [exact Nk'|exact Hy]|eapply sub_key; [exact Nk|exact E]]. }
              destruct X as [X1 X2]. unfold has_key in X1, X2. rewrite Hc in X1, X2. destruct (c_key c) as [kk|]; [|discriminate]. apply chain_eqb_eq in X1. apply chain_eqb_eq in X2. congruence.
        -- intros y Hy. apply sub_in in Hy. now apply same1_live, B, Il.
Qed.
