(** Every operation keeps the relation. *)
Require Import ZArith List Bool Lia Arith Sorted.
Require Import Verif.Heap_Model Verif.Dyn_Model Verif.Dyn_Spec Verif.Dyn_Chain Verif.Dyn_Inv Verif.Dyn_Add Verif.Dyn_Free Verif.Dyn_Rel Verif.Dyn_GC.
Import ListNotations.
Open Scope Z_scope.

(** a retract/1 can be resumed on these predicates *)
Definition retracting (pd : nat -> option nat) (s : st) (d : nat) : Prop :=
  (exists sc e, In (FScan KRetract sc e) (stk s) /\ s_dyn sc = d) \/ exists p, pd p = Some d.
Lemma retracting_exact pd s L LD a na nc d D : R pd s L LD a na nc -> retracting pd s d -> In d LD -> dyns s d = Some D -> exact_er (cls s) (e_base (d_erased D)) (L d).
Proof.
  intros H Q I Hd. destruct (r_in _ _ _ _ _ _ _ H d D I Hd) as [[_ [A B]]|A]; [|exact A]. destruct Q as [[sc [e [Q1 Q2]]]|[p Q]]; [elim (B sc e Q1 Q2)|elim (A p Q)].
Qed.
Lemma R_stk pd s L LD a na nc l e c al ae ac : R pd s L LD a na nc ->
  Forall2 (frel (cls s) (dyns s) pd L) l al -> (forall x, In x (e ++ flat_map frame_env l) -> cls s x <> None) ->
  ae = map (ent (cls s)) e -> ac = option_map (ent (cls s)) c -> (forall x, c = Some x -> cls s x <> None) ->
  (forall sc e0, In (FScan KRetract sc e0) l -> retracting pd s (s_dyn sc)) ->
  R pd (with_stk s l e c) L LD (Ast (db a) (count a) al ae ac) na nc.
Proof.
  intros H Hf He Ha Hc Hc' Hr. pose proof H as [Rdok Rcnt Rown Rald Rld Rnd Rin Rout Rpd Rinj Renv Rfr Raenv Rcur Rdb Rcount]. constructor; auto.
  intros d D Id Hd. cbn [cls dyns with_stk] in *. destruct (Rin d D Id Hd) as [[A [B C]]|A]; [|now right]. left. split; [exact A|]. split; [exact B|]. intros sc e0 I X. cbn in I. specialize (Hr sc e0 I). rewrite X in Hr. destruct Hr as [[sc' [e' [Q1 Q2]]]|[p Q]]; [elim (C sc' e' Q1 Q2)|elim (B p Q)].
Qed.
Lemma R_db_ext pd s L LD a a' na nc : R pd s L LD a na nc -> (forall p, db a' p = db a p) -> count a' = count a -> astk a' = astk a -> aenv a' = aenv a -> acur a' = acur a -> R pd s L LD a' na nc.
Proof. intros [Rdok Rcnt Rown Rald Rld Rnd Rin Rout Rpd Rinj Renv Rfr Raenv Rcur Rdb Rcount] E1 E2 E3 E4 E5. constructor; auto; try congruence. Qed.
Lemma mk_rest s s' LD : dyns s' = dyns s -> mk s LD [] -> mk s' LD [].
Proof. intros E M d D Id Hd. rewrite E in Hd. destruct (M d D Id Hd) as [A _]. split; [exact A|intros []]. Qed.

(** ** Adding *)
Lemma new_dyn_dok f d : dok scan_ok f d new_dyn [].
Proof.
  constructor; [intros ? []|constructor|discriminate|]. intros k. unfold chk, new_dyn. cbn [d_hd]. replace (sub f k []) with (@nil nat) by (now destruct k). destruct (in_htbl k); [auto|]. split; [repeat split|]. exists [], []. split; [reflexivity|]. split; [reflexivity|]. split; [intros ? []|auto].
Qed.
Lemma R_new pd s L LD a na nc p : R pd s L LD a na nc -> pd p = None -> 0 <= na -> 0 <= nc ->
  let d := nextd s in
  R (upd pd p (Some d)) (St (cls s) (nextc s) (upd (dyns s) d (Some new_dyn)) (S d) (upd (pdyn s) p (Some d)) (fdyn s) (longest s) (nb_erased s) (stk s) (env s) (cur s)) (upd L d []) LD a na nc.
Proof.
  intros H Hp Hna Hnc d. pose proof H as [Rdok Rcnt Rown Rald Rld Rnd Rin Rout Rpd Rinj Renv Rfr Raenv Rcur Rdb Rcount].
  assert (Fr : dyns s d = None). { destruct (dyns s d) eqn:E; [|reflexivity]. apply Rald in E. unfold d in E. lia. }
  assert (Al : forall e D, dyns s e = Some D -> e <> d) by (intros e D E ->; congruence).
  assert (Pn : forall q, pd q <> Some d). { intros q E. destruct (Rpd q d E) as [D X]. congruence. }
  assert (Ldn : forall e, In e LD -> e <> d). { intros e Ie. destruct Rld as [_ X]. destruct (dseg_in _ _ _ _ X Ie) as [D HD]. eauto. }
  constructor; cbn [cls nextc dyns nextd pdyn fdyn stk env cur]; auto.
  - intros e D. destruct (Nat.eq_dec e d) as [->|N]; [rewrite !upd_eq; intros [= <-]; apply new_dyn_dok|]. rewrite !upd_neq by auto. apply Rdok.
  - intros e D. destruct (Nat.eq_dec e d) as [->|N]; [rewrite upd_eq; intros [= <-]; cbn [count_a count_z curr_stamp new_dyn]; lia|]. rewrite upd_neq by auto. apply Rcnt.
  - intros x c Hx. destruct (Rown x c Hx) as [A [[D B] C]]. rewrite !upd_neq by eauto. eauto.
  - intros e D. destruct (Nat.eq_dec e d) as [->|N]; [lia|]. rewrite upd_neq by auto. intros X. apply Rald in X. unfold d. lia.
  - destruct Rld as [A B]. split; [exact A|]. apply (dseg_ext (dyns s)); [|exact B]. intros e D Ie He. rewrite upd_neq by eauto. eauto.
  - intros e D Ie He. rewrite upd_neq in He by eauto. rewrite upd_neq by eauto. destruct (Rin e D Ie He) as [[A [B C]]|A]; [left|now right]. split; [exact A|]. split; [|exact C]. intros q. destruct (Nat.eq_dec q p) as [->|N]; [rewrite upd_eq; intros [= <-]; now elim (Ldn d Ie)|]. rewrite upd_neq by auto. apply B.
  - intros e D Ie. destruct (Nat.eq_dec e d) as [->|N]; [rewrite !upd_eq; intros [= <-]; left; split; [reflexivity|intros ? []]|]. rewrite !upd_neq by auto. now apply Rout.
  - intros q e. destruct (Nat.eq_dec q p) as [->|N]; [rewrite upd_eq; intros [= <-]; rewrite upd_eq; eauto|]. rewrite upd_neq by auto. intros E. destruct (Rpd q e E) as [D X]. rewrite upd_neq by eauto. eauto.
  - intros q r e. destruct (Nat.eq_dec q p) as [->|N1], (Nat.eq_dec r p) as [->|N2]; rewrite ?upd_eq, ?upd_neq by auto; auto; [intros [= <-] E; now elim (Pn r)|intros E [= <-]; now elim (Pn q)|apply Rinj].
  - apply (Forall2_impl_in (frel (cls s) (dyns s) pd L)); [|exact Rfr]. intros fr af _ F. pose proof F as F0. eapply frel_keep; [exact F| |reflexivity|].
    + intros k sc e -> D HD. exists D, [], []. rewrite !upd_neq by eauto. split; [exact HD|]. split; [now rewrite app_nil_r|]. split; [|split; [intros ? []|lia]]. intros x Hx. destruct (k_cl _ _ _ _ _ (Rdok _ D HD) x Hx) as [c [A _]]. exists c, c. auto.
    + intros k sc e q ->. destruct af; [destruct F0|]. destruct F0 as [_ [_ [_ [D [c0 [kx [sx [sv [rt [HD _]]]]]]]]]]. destruct (Nat.eq_dec q p) as [->|N]; [rewrite upd_eq; intros [= E]; elim (Al _ _ HD); now rewrite <- E|]. now rewrite upd_neq.
  - intros q. rewrite Rdb. destruct (Nat.eq_dec q p) as [->|N]; [rewrite Hp, upd_eq; cbn; now rewrite upd_eq|]. rewrite (upd_neq pd) by auto. destruct (pd q) as [e|] eqn:E; [|reflexivity]. cbn. rewrite upd_neq; [reflexivity|]. intros ->. now elim (Pn q).
Qed.
Lemma add_ok_R pd s L LD a na nc p d D front ar data file : R pd s L LD a na nc -> mk s LD [] -> cur s = None -> pd p = Some d -> dyns s d = Some D -> na < 2 ^ 31 - 1 ->
  let x := Entry (count a) ar data in
  exists s' L', add_at s d front ar data file = Ret s' /\ pdyn s' = pdyn s /\ mk s' LD [] /\
    R pd s' L' LD (Ast (upd (db a) p (if front then x :: db a p else db a p ++ [x])) (S (count a)) (astk a) (aenv a) (acur a)) (na + 1) nc.
Proof.
  intros H Mk Hcur Hp Hd Hna x. pose proof H as [Rdok Rcnt Rown Rald Rld Rnd Rin Rout Rpd Rinj Renv Rfr Raenv Rcur Rdb Rcount].
  pose proof (Rdok d D Hd) as K. pose proof (Rcnt d D Hd) as Cn.
  assert (Fx : cls s (nextc s) = None). { destruct (cls s (nextc s)) as [c|] eqn:E; [|reflexivity]. apply Rown in E. destruct E. lia. }
  destruct (add_at_ok s d D (L d) front ar data file Hd K Fx) as [s' [D' [E [Nc [Rs [Dy [De [Dn [Ds [Da [Dz [K' [[cx [Cx [Ax Sx]]] [Co Cs]]]]]]]]]]]]]]; try lia.
  injection Rs as T1 T2 T3 T4 T5 T6 T7 T8. exists s', (upd L d (ins front (nextc s) (L d))). split; [exact E|]. split; [exact T2|].
  assert (Hd' : dyns s' d = Some D') by (rewrite Dy; apply upd_eq). assert (Ho : forall e, e <> d -> dyns s' e = dyns s e) by (intros e N; rewrite Dy; now apply upd_neq).
  assert (Nx : ~ In (nextc s) (L d)). { intros X. destruct (k_cl _ _ _ _ _ K _ X) as [c [Y _]]. congruence. }
  assert (Sm : forall y, In y (L d) -> exists c c', cls s y = Some c /\ cls s' y = Some c' /\ simc c c'). { intros y Hy. destruct (k_cl _ _ _ _ _ K y Hy) as [c [Y _]]. destruct (Cs y c) as [c' [X Z]]; [intros ->; contradiction|exact Y|]. eauto. }
  split.
  { intros e De' Ie He. split; [|intros []]. intros _. destruct (Nat.eq_dec e d) as [->|N]; [rewrite Hd' in He; injection He as <-; rewrite De; now apply (Mk d D Ie Hd)|]. rewrite Ho in He by auto. now apply (Mk e De' Ie He). }
  assert (Lv : forall y, In y (L d) -> live (cls s') y = live (cls s) y). { intros y Hy. destruct (Sm y Hy) as [c [c' [A [B [_ [C _]]]]]]. unfold live. now rewrite A, B, C. }
  assert (En : forall y, In y (L d) -> ent (cls s') y = ent (cls s) y). { intros y Hy. destruct (Sm y Hy) as [c [c' [A [B [C _]]]]]. unfold ent. rewrite A, B. now rewrite (attr_arg _ _ C), (attr_data _ _ C). }
  assert (Lx : live (cls s') (nextc s) = true) by (unfold live; rewrite Cx, Sx; reflexivity).
  assert (Ex : ent (cls s') (nextc s) = x). { unfold ent, x. rewrite Cx. unfold attr in Ax. injection Ax as A1 A2 A3 A4 A5. now rewrite A4, A5, Rcount. }
  apply (R_step pd s s' L LD LD a _ na nc (na + 1) nc d D (ins front (nextc s) (L d)) (upd L d (ins front (nextc s) (L d)))); auto; try reflexivity; try lia.
  - congruence.
  - intros e N. rewrite Ho by auto. destruct (dyns s e); [|reflexivity]. eexists. split; [reflexivity|apply dsim_refl].
  - destruct Rld as [A B]. split; [congruence|]. apply (dseg_ext (dyns s)); [|exact B]. intros e De' Ie He. destruct (Nat.eq_dec e d) as [->|N]; [rewrite Hd in He; injection He as <-; eauto|]. rewrite Ho by auto. eauto.
  - intros y A B. rewrite in_ins in B. apply Co; tauto.
  - intros y A. apply in_ins in A. destruct A as [->|A]; [now right|now left].
  - intros y c A B. assert (A' : In y (ins front (nextc s) (L d))) by (rewrite in_ins in *; tauto). destruct (k_cl _ _ _ _ _ K' y A') as [c1 [X [Y _]]]. rewrite X in B. injection B as <-. split; [|split; [exact Y|split; [congruence|exact A']]].
    rewrite Nc. apply in_ins in A'. destruct A' as [->|A']; [lia|]. pose proof (cls_lt pd s L LD a na nc d D y H Hd A'). lia.
  - intros D1 HD1. rewrite Hd' in HD1. injection HD1 as <-. split; [exact K'|]. split; [rewrite Da, Dz, Ds; destruct front; lia|]. rewrite De. split.
    + intros I. destruct (Rin d D I Hd) as [X|[er [E1 [E2 [E3 E4]]]]]; [now left|right]. exists er. split; [exact E1|]. split; [|split; [exact E3|]].
      * apply (echain_ext (cls s)); [|exact E2]. intros y c Iy Hy. destruct (Cs y c) as [c' [X [_ [_ [Y _]]]]]; [intros ->; apply E4 in Iy; tauto|exact Hy|]. eauto.
      * intros y. rewrite E4, in_ins. split; [intros [A B]; split; [now right|now rewrite Lv]|]. intros [[->|A] B]; [congruence|]. split; [exact A|]. now rewrite <- Lv.
    + intros I. destruct (Rout d D I Hd) as [[A B]|A]; [left; split; [exact A|]|now right]. intros y Hy. apply in_ins in Hy. destruct Hy as [->|Hy]; [exact Lx|]. rewrite Lv by auto. auto.
  - intros _ D1 HD1. rewrite Hd in HD1. injection HD1 as <-. rewrite upd_eq.
    assert (Ev : forall y, In y (L d) -> evol1 (curr_stamp D) (cls s) (cls s') y). { intros y Hy. destruct (Sm y Hy) as [c [c' [A [B [C [Z _]]]]]]. exists c, c'. auto. }
    exists D', (if front then [nextc s] else []), (if front then [] else [nextc s]). split; [exact Hd'|]. split; [unfold ins; destruct front; cbn; [now rewrite app_nil_r|reflexivity]|]. split; [exact Ev|]. split; [|rewrite Dz, Ds; destruct front; lia].
    intros y Hy. destruct front; [destruct Hy|]. destruct Hy as [<-|[]]. unfold no. rewrite Cx. unfold attr in Ax. injection Ax as A1 A2 A3 A4 A5. lia.
  - intros q Hq. assert (q = p) by (apply (Rinj q p d); auto). subst q. split; [rewrite Hd'; discriminate|]. cbn. rewrite upd_eq, Rdb, Hp. cbn. unfold ins.
    assert (Mp : map (ent (cls s')) (filter (live (cls s')) (L d)) = map (ent (cls s)) (filter (live (cls s)) (L d))).
    { rewrite (filter_ext_in' (live (cls s')) (live (cls s))) by auto. apply map_ext_in. intros y Hy. apply filter_In in Hy. apply En, Hy. }
    destruct front; cbn [filter].
    + rewrite Lx. cbn [map]. now rewrite Ex, Mp.
    + rewrite filter_app, map_app, Mp. cbn [filter]. rewrite Lx. cbn [map]. now rewrite Ex.
  - intros q Hq. cbn. rewrite upd_neq; [reflexivity|]. congruence.
  - cbn. rewrite Nc, Rcount. reflexivity.
Qed.

(** ** Erasing a clause *)
Lemma move_ok s d k x D l : dyns s d = Some D -> dok scan_ok (cls s) d D l -> In x (sub (cls s) k l) -> live (cls s) x = false ->
  exists s' D', move_scan s d k x = Ret s' /\ cls s' = cls s /\ rest s' = rest s /\ (forall e, dyns s' e = upd (dyns s) d (Some D') e) /\ drest D' = drest D /\ dok scan_ok (cls s') d D' l.
Proof.
  intros Hd K Ix Lx. pose proof K as [KC KS KQ KH]. destruct (KC x (sub_in _ _ _ _ Ix)) as [c [Hx _]]. unfold move_scan, getc. rewrite Hx. cbn [bind]. unfold geth, getd. rewrite Hd. cbn [bind].
  pose proof (KH k) as HK. unfold chk in HK. destruct (d_hd D k) as [h|] eqn:Hh; [|destruct HK as [_ HK]; rewrite HK in Ix; destruct Ix]. cbn [bind]. destruct HK as [HK1 HK2].
  assert (Same : exists s' D', Ret s = Ret s' /\ cls s' = cls s /\ rest s' = rest s /\ (forall e, dyns s' e = upd (dyns s) d (Some D') e) /\ drest D' = drest D /\ dok scan_ok (cls s') d D' l).
  { exists s, D. split; [reflexivity|]. split; [reflexivity|]. split; [reflexivity|]. split; [intros e; destruct (Nat.eq_dec e d) as [->|N]; [now rewrite upd_eq|now rewrite upd_neq]|]. split; [reflexivity|exact K]. }
  destruct (h_scan h) as [y|] eqn:Hs; [|exact Same]. destruct (c_next (cell_of k c)) as [n|] eqn:Hn; [|exact Same]. destruct (Nat.eqb y x) eqn:E; [|exact Same]. apply Nat.eqb_eq in E. subst y. clear Same.
  unfold puth, getd. rewrite Hd. cbn [bind]. set (h' := Hdr (h_first h) (Some n) (h_last h)). exists (putd s d (set_hd D k (Some h'))), (set_hd D k (Some h')). split; [reflexivity|]. split; [reflexivity|]. split; [reflexivity|]. split; [reflexivity|]. split; [reflexivity|].
  constructor; auto.
  - destruct (chain_eqb Seq k) eqn:Q; [apply chain_eqb_eq in Q; subst k; rewrite set_hd_eq; discriminate|]. rewrite set_hd_neq; [exact KQ|]. intros <-. now rewrite chain_eqb_refl in Q.
  - intros k'. destruct (chain_eqb k' k) eqn:Q.
    + apply chain_eqb_eq in Q. subst k'. unfold chk. rewrite set_hd_eq. split; [exact HK1|]. destruct HK2 as [pre [suf [S1 [S2 [S3 S4]]]]]. destruct suf as [|z suf]; [cbn in S2; congruence|]. cbn in S2. rewrite Hs in S2. injection S2 as <-.
      assert (Cn : c_next (cell_of k c) = nxt suf None). { destruct (chk_cell (cls s) D k (sub (cls s) k l) pre x suf (KH k) S1) as [c1 [A B]]. congruence. }
      exists (pre ++ [x]), suf. split; [rewrite <- app_assoc; exact S1|]. cbn. split; [congruence|]. split; [|intros ->; cbn in Cn; congruence]. intros y Hy. apply in_app_iff in Hy. destruct Hy as [Hy|[<-|[]]]; [auto|exact Lx].
    + apply (chk_ext scan_ok (cls s) _ D); auto using scan_ok_ext. apply set_hd_neq. intros ->. now rewrite chain_eqb_refl in Q.
Qed.
Lemma erase_dok f d D l x c n e : dok scan_ok f d D l -> f x = Some c -> 0 <= n <= curr_stamp D -> n <> ALIVE -> dok scan_ok (upd f x (Some (set_erase c n e))) d D l.
Proof.
  intros [KC KS KQ KH] Hx Hn Na. set (g := upd f x _).
  assert (Gx : g x = Some (set_erase c n e)) by apply upd_eq. assert (Go : forall y, y <> x -> g y = f y) by (intros y N; now apply upd_neq).
  assert (No : forall y, no g y = no f y) by (intros y; unfold no; destruct (Nat.eq_dec y x) as [->|N]; [now rewrite Gx, Hx|now rewrite Go]).
  assert (Ke : forall k y, has_key g k y = has_key f k y) by (intros k y; unfold has_key; destruct (Nat.eq_dec y x) as [->|N]; [now rewrite Gx, Hx|now rewrite Go]).
  assert (Ce : forall k y, cf g k y = cf f k y) by (intros k y; unfold cf; destruct (Nat.eq_dec y x) as [->|N]; [rewrite Gx, Hx; now destruct k|now rewrite Go]).
  assert (Li : forall y, live f y = false -> live g y = false) by (intros y; unfold live; destruct (Nat.eq_dec y x) as [->|N]; [rewrite Gx; intros _; cbn; now apply Z.eqb_neq|now rewrite Go]).
  constructor; auto.
  - intros y Hy. destruct (KC y Hy) as [c1 [A [B [C [E F]]]]]. destruct (Nat.eq_dec y x) as [->|N]; [|exists c1; rewrite Go by auto; auto]. rewrite Hx in A. injection A as <-. exists (set_erase c n e). split; [exact Gx|]. cbn. auto.
  - apply (srt_ext f); [|exact KS]. auto.
  - intros k. rewrite (sub_ext g f) by auto. specialize (KH k). unfold chk in *. destruct (d_hd D k) as [h|]; [|exact KH]. destruct KH as [K1 [pre [suf [S1 [S2 [S3 S4]]]]]]. split; [apply (chain_ext (cf f k)); [intros y _; now rewrite Ce|exact K1]|]. exists pre, suf. split; [exact S1|]. split; [exact S2|]. split; [|exact S4]. intros y Hy. now apply Li, S3.
Qed.
Lemma eid_ent f x : eid (ent f x) = x.
Proof. unfold ent. now destruct (f x). Qed.
Lemma without_map f x l : without x (map (ent f) l) = map (ent f) (filter (fun y => negb (Nat.eqb y x)) l).
Proof. induction l as [|y l IH]; [reflexivity|]. cbn. rewrite eid_ent. destruct (negb (Nat.eqb y x)); cbn; [f_equal|]; exact IH. Qed.
Lemma without_notin f x l : ~ In x l -> without x (map (ent f) l) = map (ent f) l.
Proof.
  intros N. rewrite without_map. f_equal. induction l as [|y l IH]; [reflexivity|]. cbn. destruct (Nat.eqb y x) eqn:E; [apply Nat.eqb_eq in E; elim N; now left|]. cbn. f_equal. apply IH. intros X. apply N. now right.
Qed.
Lemma filter_filter {A} (p q : A -> bool) l : filter p (filter q l) = filter (fun x => q x && p x) l.
Proof. induction l as [|x l IH]; [reflexivity|]. cbn. destruct (q x); cbn; [destruct (p x); cbn; congruence|exact IH]. Qed.
Definition adel (a : ast) (x : nat) : ast := Ast (fun q => without x (db a q)) (count a) (astk a) (aenv a) (acur a).
Lemma delete_ok MC MS pd s L LD a na nc x c : R pd s L LD a na nc -> mk s LD [] -> cur s = None -> cls s x = Some c -> nc < 2 ^ 64 - 1 ->
  (forall D, In (c_dyn c) LD -> dyns s (c_dyn c) = Some D -> exact_er (cls s) (e_base (d_erased D)) (L (c_dyn c))) ->
  exists s' L' LD', Delete_Dynamic_Clause MC MS s x = Ret s' /\ R pd s' L' LD' (adel a x) na nc /\ mk s' LD' [] /\ rest3 s' = rest3 s.
Proof.
  intros H Mk Hcur Hx Hnc Hex. pose proof H as [Rdok Rcnt Rown Rald Rld Rnd Rin Rout Rpd Rinj Renv Rfr Raenv Rcur Rdb Rcount].
  unfold Delete_Dynamic_Clause, getc at 1. rewrite Hx. cbn [bind]. set (d := c_dyn c) in *.
  assert (Oth : forall q, pd q <> Some d -> without x (db a q) = db a q).
  { intros q Hq. rewrite Rdb. destruct (pd q) as [e|] eqn:E; [|reflexivity]. cbn. apply without_notin. intros X. apply filter_In in X. destruct X as [X _]. destruct (Rpd q e E) as [De HDe]. destruct (k_cl _ _ _ _ _ (Rdok e De HDe) x X) as [c1 [A [B _]]]. apply Hq. unfold d. congruence. }
  destruct (c_stamp c =? ALIVE) eqn:El; cbn [negb].
  2:{ exists s, L, LD. split; [reflexivity|]. split; [|auto]. apply (R_db_ext pd s L LD a); auto. intros q. cbn. rewrite Rdb. destruct (pd q) as [e|]; [|reflexivity]. cbn. apply without_notin. intros X. apply filter_In in X. destruct X as [_ X]. unfold live in X. rewrite Hx in X. congruence. }
  apply Z.eqb_eq in El. destruct (Rown x c Hx) as [_ [[D Hd] Ix]]. fold d in Hd, Ix. pose proof (Rdok d D Hd) as K. pose proof (Rcnt d D Hd) as Cn.
  assert (Lx : live (cls s) x = true) by (unfold live; rewrite Hx, El; reflexivity).
  set (LD' := if is_null (d_erased D) then d :: LD else LD).
  assert (NdN : is_null (d_erased D) = true -> ~ In d LD). { intros E I. rewrite (linked_nonnull pd s L LD a na nc d D H I Hd) in E. discriminate. }
  assert (P1 : exists s1 D1, link_dyn s d = Ret s1 /\ cls s1 = cls s /\ dyns s1 d = Some D1 /\ (forall e, e <> d -> dyns s1 e = dyns s e) /\ d_hd D1 = d_hd D /\ count_a D1 = count_a D /\ count_z D1 = count_z D /\ curr_stamp D1 = curr_stamp D /\ d_erased D1 = d_erased D /\
     rest3 s1 = rest3 s /\ nxt LD' None = fdyn s1 /\ (forall D2, d_next D2 = d_next D1 -> forall g, g d = Some D2 -> (forall e, e <> d -> g e = dyns s e) -> dlist g (fdyn s1) LD')).
  { unfold link_dyn, getd. rewrite Hd. cbn [bind]. subst LD'. destruct Rld as [Rl1 Rl2]. destruct (is_null (d_erased D)) eqn:En.
    - eexists _, _. split; [reflexivity|]. split; [reflexivity|]. split; [cbn; apply upd_eq|]. split; [intros e N; cbn; now apply upd_neq|]. do 6 (split; [reflexivity|]). split; [reflexivity|]. intros D2 E2 g G1 G2. split; [reflexivity|]. split; [exists D2; split; [exact G1|cbn in *; congruence]|].
      apply (dseg_ext (dyns s)); [|exact Rl2]. intros e De Ie He. rewrite G2; [eauto|]. intros ->. exact (NdN eq_refl Ie).
    - exists s, D. split; [reflexivity|]. split; [reflexivity|]. split; [exact Hd|]. split; [reflexivity|]. do 6 (split; [reflexivity|]). split; [now rewrite Rl1|]. intros D2 E2 g G1 G2. split; [exact Rl1|].
      apply (dseg_ext (dyns s)); [|exact Rl2]. intros e De Ie He. destruct (Nat.eq_dec e d) as [->|N]; [rewrite Hd in He; injection He as <-; eauto|]. rewrite G2 by auto. eauto. }
  destruct P1 as [s1 [D1 [E1 [C1 [Hd1 [Ho1 [F1 [F2 [F3 [F4 [F5 [R1 [Nx1 Hld]]]]]]]]]]]]]. rewrite E1. cbn [bind]. unfold getd. rewrite Hd1. cbn [bind].
  rewrite F4, F5. set (c' := set_erase c (curr_stamp D) (d_erased D)). set (D4 := set_erased D1 (EP (ECl x) false)). set (s4 := with_nb _ _).
  assert (Na : curr_stamp D <> ALIVE) by (unfold ALIVE; lia).
  assert (C4 : cls s4 = upd (cls s) x (Some c')) by (cbn; now rewrite C1).
  assert (K4 : dok scan_ok (cls s4) d D4 (L d)). { rewrite C4. apply (dok_ext scan_ok (upd (cls s) x (Some c')) _ d D D4); auto using scan_ok_ext; try (cbn; congruence); [cbn; lia|]. apply erase_dok; auto. lia. }
  assert (Hd4 : dyns s4 d = Some D4) by (cbn; apply upd_eq).
  assert (L4 : live (cls s4) x = false) by (unfold live; rewrite C4, upd_eq; cbn; now apply Z.eqb_neq).
  destruct (move_ok s4 d Seq x D4 (L d) Hd4 K4 Ix L4) as [s5 [D5 [E5 [C5 [R5 [Dy5 [DR5 K5]]]]]]]. rewrite E5. cbn [bind].
  assert (P6 : exists s6 D6, match c_key c with None => Ret s5 | Some k => move_scan s5 d k x end = Ret s6 /\ cls s6 = cls s5 /\ rest s6 = rest s5 /\ (forall e, dyns s6 e = upd (dyns s5) d (Some D6) e) /\ drest D6 = drest D5 /\ dok scan_ok (cls s6) d D6 (L d)).
  { destruct (c_key c) as [k|] eqn:Ek.
    - apply move_ok; [rewrite Dy5; apply upd_eq|exact K5| |rewrite C5; exact L4]. assert (Nk : k <> Seq). { destruct (k_cl _ _ _ _ _ K x Ix) as [c1 [A [_ [_ [_ B]]]]]. rewrite Hx in A. injection A as <-. rewrite Ek in B. intros ->. destruct (c_arg c); discriminate. }
      replace (sub (cls s5) k (L d)) with (filter (has_key (cls s5) k) (L d)) by (destruct k; auto; now elim Nk). apply filter_In. split; [exact Ix|]. unfold has_key. rewrite C5, C4, upd_eq. cbn. rewrite Ek. apply chain_eqb_refl.
    - exists s5, D5. split; [reflexivity|]. split; [reflexivity|]. split; [reflexivity|]. split; [intros e; destruct (Nat.eq_dec e d) as [->|N]; [now rewrite Dy5, !upd_eq|now rewrite upd_neq]|]. split; [reflexivity|exact K5]. }
  destruct P6 as [s6 [D6 [E6 [C6 [R6 [Dy6 [DR6 K6]]]]]]]. rewrite E6. cbn [bind].
  assert (Cs : cls s6 = upd (cls s) x (Some c')) by congruence.
  assert (Hd6 : dyns s6 d = Some D6) by (rewrite Dy6; apply upd_eq). assert (Ho6 : forall e, e <> d -> dyns s6 e = dyns s e). { intros e N. rewrite Dy6, upd_neq, Dy5, upd_neq by auto. cbn. rewrite upd_neq by auto. now apply Ho1. }
  assert (DR : drest D6 = (count_a D, count_z D, curr_stamp D, EP (ECl x) false, d_next D1)). { rewrite DR6, DR5. unfold drest. cbn. congruence. } unfold drest in DR. injection DR as V1 V2 V3 V4 V5.
  unfold rest in R6, R5. cbn in R5. injection R6 as Q1 Q2 Q3 Q4 Q5 Q6 Q7 Q8 Q9. injection R5 as U1 U2 U3 U4 U5 U6 U7 U8 U9. unfold rest3 in R1. injection R1 as W1 W2 W3 W4 W5 W6.
  assert (Cso : forall y, y <> x -> cls s6 y = cls s y) by (intros y N; rewrite Cs; now apply upd_neq). assert (Csx : cls s6 x = Some c') by (rewrite Cs; apply upd_eq).
  assert (Lvo : forall y, y <> x -> live (cls s6) y = live (cls s) y) by (intros y N; unfold live; now rewrite Cso). assert (Lvx : live (cls s6) x = false) by (rewrite C6, C5; exact L4).
  assert (H6 : R pd s6 L LD' (adel a x) na nc).
  { apply (R_step pd s s6 L LD LD' a (adel a x) na nc na nc d D (L d) L); auto; try reflexivity; try lia.
    - intros e. unfold upd. destruct (Nat.eqb e d) eqn:E; [apply Nat.eqb_eq in E; now subst|reflexivity].
    - congruence.
    - intros e N. rewrite Ho6 by auto. destruct (dyns s e); [|reflexivity]. eexists. split; [reflexivity|apply dsim_refl].
    - intros e N. subst LD'. destruct (is_null (d_erased D)); cbn; intuition congruence.
    - replace (fdyn s6) with (fdyn s1) by congruence. apply (Hld D6); auto.
    - subst LD'. destruct (is_null (d_erased D)); [constructor; auto|exact Rnd].
    - intros y A _. apply Cso. intros ->. contradiction.
    - intros y c1 A B. assert (A' : In y (L d)) by tauto. destruct (k_cl _ _ _ _ _ K6 y A') as [c2 [X [Y _]]]. rewrite X in B. injection B as <-. split; [|split; [exact Y|split; [congruence|exact A']]]. pose proof (cls_lt pd s L LD a na nc d D y H Hd A'). congruence.
    - intros D' E. rewrite Hd6 in E. injection E as <-. split; [exact K6|]. split; [lia|]. rewrite V4. split.
      + intros I. right. cbn [e_base]. destruct (in_dec Nat.eq_dec d LD) as [Id|Nd].
        * destruct (Hex D Id Hd) as [er [X1 [X2 [X3 X4]]]]. assert (Nx : ~ In x er) by (rewrite X4; intros [_ Z]; congruence). exists (x :: er). split; [discriminate|]. split; [|split; [constructor; auto|]].
          -- split; [reflexivity|]. exists c'. split; [exact Csx|]. cbn. destruct (Mk d D Id Hd) as [Mk1 _]. specialize (Mk1 (fun X => X)). destruct (d_erased D) as [b m]. cbn in Mk1, X2. subst m. apply (echain_ext (cls s)); [|exact X2]. intros y cy Iy Hy. rewrite Cso by (intros ->; contradiction). eauto.
          -- intros y. cbn. rewrite X4. destruct (Nat.eq_dec y x) as [->|N]; [tauto|]. rewrite Lvo by auto. intuition congruence.
        * destruct (Rout d D Nd Hd) as [[X1 X2]|X1].
          -- exists [x]. split; [discriminate|]. split; [|split; [constructor; [intros []|constructor]|]].
             ++ split; [reflexivity|]. exists c'. split; [exact Csx|]. cbn. exact X1.
             ++ intros y. cbn. destruct (Nat.eq_dec y x) as [->|N]; [tauto|]. rewrite Lvo by auto. split; [intuition congruence|]. intros [Y1 Y2]. rewrite X2 in Y2 by auto. discriminate.
          -- subst LD'. rewrite X1 in I. contradiction.
      + intros _. right. reflexivity.
    - intros _ D2 HD2. rewrite Hd in HD2. injection HD2 as <-. exists D6, [], []. split; [exact Hd6|]. split; [now rewrite app_nil_r|]. split; [|split; [intros ? []|lia]]. intros y Hy. destruct (Nat.eq_dec y x) as [->|N].
      + exists c, c'. split; [exact Hx|]. split; [exact Csx|]. split; [reflexivity|]. right. split; [exact El|]. cbn. lia.
      + destruct (k_cl _ _ _ _ _ K y Hy) as [cy [A _]]. exists cy, cy. rewrite Cso by auto. auto.
    - intros q Hq. split; [congruence|]. change (db (adel a x) q) with (without x (db a q)). rewrite Rdb, Hq. cbn [dbof]. rewrite without_map, filter_filter.
      transitivity (map (ent (cls s6)) (filter (fun y => live (cls s) y && negb (Nat.eqb y x)) (L d))).
      + apply map_ext_in. intros y Hy. apply filter_In in Hy. destruct Hy as [_ Hy]. apply andb_true_iff in Hy. destruct Hy as [_ Hy]. apply negb_true_iff in Hy. apply Nat.eqb_neq in Hy. unfold ent. now rewrite Cso.
      + f_equal. apply filter_ext_in'. intros y Hy. destruct (Nat.eq_dec y x) as [->|N]; [rewrite Lvx, Nat.eqb_refl, andb_false_r; reflexivity|]. rewrite Lvo by auto. rewrite (proj2 (Nat.eqb_neq y x)) by auto. cbn. now rewrite andb_true_r.
    - cbn. congruence. }
  assert (Mk6 : mk s6 LD' []).
  { intros e De Ie He. split; [|intros []]. intros _. destruct (Nat.eq_dec e d) as [->|N]; [rewrite Hd6 in He; injection He as <-; rewrite V4; reflexivity|]. rewrite Ho6 in He by auto. apply (Mk e De); auto. subst LD'. destruct (is_null (d_erased D)); [|exact Ie]. destruct Ie as [Ie|Ie]; [congruence|exact Ie]. }
  destruct (gc_ok MC MS pd s6 L LD' (adel a x) na nc H6 Mk6) as [s7 [L7 [LD7 [E7 [H7 [Mk7 R7]]]]]]; [congruence|].
  exists s7, L7, LD7. split; [exact E7|]. split; [exact H7|]. split; [exact Mk7|]. rewrite R7. unfold rest3. congruence.
Qed.

(** ** Erasing a predicate *)
Lemma R_detach pd s L LD a na nc p : R pd s L LD a na nc -> R (upd pd p None) s L LD (Ast (upd (db a) p []) (count a) (astk a) (aenv a) (acur a)) na nc.
Proof.
  intros [Rdok Rcnt Rown Rald Rld Rnd Rin Rout Rpd Rinj Renv Rfr Raenv Rcur Rdb Rcount].
  assert (P : forall q d, upd pd p None q = Some d -> pd q = Some d). { intros q d. destruct (Nat.eq_dec q p) as [->|N]; [rewrite upd_eq; discriminate|]. now rewrite upd_neq. }
  constructor; auto.
  - intros d D Id Hd. destruct (Rin d D Id Hd) as [[A [B C]]|A]; [left|now right]. split; [exact A|]. split; [|exact C]. intros q X. apply P in X. now apply (B q).
  - intros q d X. apply P in X. eauto.
  - intros q r d X Y. apply P in X. apply P in Y. eauto.
  - apply (Forall2_impl_in (frel (cls s) (dyns s) pd L)); [|exact Rfr]. intros fr af _ F. eapply frel_keep; [exact F| |reflexivity|].
    + intros k sc e -> D HD. exists D, [], []. split; [exact HD|]. split; [now rewrite app_nil_r|]. split; [|split; [intros ? []|lia]]. intros x Hx. destruct (k_cl _ _ _ _ _ (Rdok _ D HD) x Hx) as [c [A _]]. exists c, c. auto.
    + intros k sc e q _ X. now apply P.
  - intros q. cbn. destruct (Nat.eq_dec q p) as [->|N]; [now rewrite !upd_eq|]. rewrite !upd_neq by auto. apply Rdb.
Qed.
Lemma count_alive_ok : forall l fuel s pv n, seg (cf (cls s) Seq) pv l None -> (length l < fuel)%nat -> exists n', count_alive fuel s (nxt l None) n = Ret n'.
Proof.
  induction l as [|x l IH]; intros fuel s pv n S Hf; (destruct fuel as [|fuel]; [cbn in Hf; lia|]); [exists n; reflexivity|].
  destruct S as [S1 S2]. cbn [nxt count_alive]. unfold cf in S1. destruct (cls s x) as [c|] eqn:Hx; [|discriminate]. cbn in S1. injection S1 as S1. unfold getc. rewrite Hx. cbn [bind]. rewrite S1. cbn [c_next]. eapply IH; [exact S2|cbn in Hf; lia].
Qed.
Lemma erase_all_ok MC MS pd s L LD a na nc d D : R pd s L LD a na nc -> mk s LD [] -> cur s = None -> dyns s d = Some D -> detached pd s d ->
  exists s' L' LD', Erase_All MC MS s d = Ret s' /\ R pd s' L' LD' a na nc /\ mk s' LD' [] /\ rest3 s' = rest3 s.
Proof.
  intros H Mk Hcur Hd Det. pose proof H as [Rdok Rcnt Rown Rald Rld Rnd Rin Rout Rpd Rinj Renv Rfr Raenv Rcur Rdb Rcount].
  pose proof (Rdok d D Hd) as K. pose proof (Rcnt d D Hd) as Cn. unfold Erase_All.
  set (LD' := if is_null (d_erased D) then d :: LD else LD).
  assert (NdN : is_null (d_erased D) = true -> ~ In d LD). { intros E I. rewrite (linked_nonnull pd s L LD a na nc d D H I Hd) in E. discriminate. }
  assert (P1 : exists s1 D1, link_dyn s d = Ret s1 /\ cls s1 = cls s /\ dyns s1 d = Some D1 /\ (forall e, e <> d -> dyns s1 e = dyns s e) /\ d_hd D1 = d_hd D /\ count_a D1 = count_a D /\ count_z D1 = count_z D /\ curr_stamp D1 = curr_stamp D /\ d_erased D1 = d_erased D /\
     rest3 s1 = rest3 s /\ (forall D2, d_next D2 = d_next D1 -> forall g, g d = Some D2 -> (forall e, e <> d -> g e = dyns s e) -> dlist g (fdyn s1) LD')).
  { unfold link_dyn, getd. rewrite Hd. cbn [bind]. subst LD'. destruct Rld as [Rl1 Rl2]. destruct (is_null (d_erased D)) eqn:En.
    - eexists _, _. split; [reflexivity|]. split; [reflexivity|]. split; [cbn; apply upd_eq|]. split; [intros e N; cbn; now apply upd_neq|]. do 6 (split; [reflexivity|]). intros D2 E2 g G1 G2. split; [reflexivity|]. split; [exists D2; split; [exact G1|cbn in *; congruence]|].
      apply (dseg_ext (dyns s)); [|exact Rl2]. intros e De Ie He. rewrite G2; [eauto|]. intros ->. exact (NdN eq_refl Ie).
    - exists s, D. split; [reflexivity|]. split; [reflexivity|]. split; [exact Hd|]. split; [reflexivity|]. do 6 (split; [reflexivity|]). intros D2 E2 g G1 G2. split; [exact Rl1|].
      apply (dseg_ext (dyns s)); [|exact Rl2]. intros e De Ie He. destruct (Nat.eq_dec e d) as [->|N]; [rewrite Hd in He; injection He as <-; eauto|]. rewrite G2 by auto. eauto. }
  destruct P1 as [s1 [D1 [E1 [C1 [Hd1 [Ho1 [F1 [F2 [F3 [F4 [F5 [R1 Hld]]]]]]]]]]]]. rewrite E1. cbn [bind]. unfold getd at 1. rewrite Hd1. cbn [bind].
  set (D2 := set_erased D1 (EP EAll false)). unfold geth, getd. cbn [dyns putd with_dyns]. rewrite upd_eq. cbn [bind]. replace (d_hd D2 Seq) with (d_hd D Seq) by (cbn; now rewrite F1).
  pose proof (k_ch _ _ _ _ _ K Seq) as HS. unfold chk in HS. destruct (d_hd D Seq) as [h|] eqn:Hh; [|now elim (k_seq _ _ _ _ _ K)]. cbn [sub] in HS. destruct HS as [[HS1 [_ HS2]] _]. cbn [bind]. rewrite HS1.
  unfold rest3 in R1. injection R1 as W1 W2 W3 W4 W5 W6.
  pose proof (nodup_len _ _ (srt_nodup _ _ (k_srt _ _ _ _ _ K)) (fun x Hx => cls_lt pd s L LD a na nc d D x H Hd Hx)) as Ln.
  set (s2 := putd s1 d D2). destruct (count_alive_ok (L d) (S (nextc s2)) s2 None (nb_erased s2)) as [n En]; [cbn; rewrite C1; exact HS2|cbn; lia|]. rewrite En. cbn [bind].
  set (s6 := with_nb s2 n). assert (Hd6 : dyns s6 d = Some D2) by (cbn; apply upd_eq). assert (Ho6 : forall e, e <> d -> dyns s6 e = dyns s e) by (intros e N; cbn; rewrite upd_neq by auto; now apply Ho1).
  assert (C6 : cls s6 = cls s) by exact C1.
  assert (H6 : R pd s6 L LD' a na nc).
  { apply (R_step pd s s6 L LD LD' a a na nc na nc d D (L d) L); auto; try reflexivity; try lia.
    - intros e. unfold upd. destruct (Nat.eqb e d) eqn:E; [apply Nat.eqb_eq in E; now subst|reflexivity].
    - cbn. congruence.
    - cbn. lia.
    - intros e N. rewrite Ho6 by auto. destruct (dyns s e); [|reflexivity]. eexists. split; [reflexivity|apply dsim_refl].
    - intros e N. subst LD'. destruct (is_null (d_erased D)); cbn; intuition congruence.
    - apply (Hld D2); auto.
    - subst LD'. destruct (is_null (d_erased D)); [constructor; auto|exact Rnd].
    - intros y _ _. now rewrite C6.
    - intros y c1 A B. assert (A' : In y (L d)) by tauto. rewrite C6 in B. destruct (k_cl _ _ _ _ _ K y A') as [c2 [X [Y _]]]. rewrite X in B. injection B as <-. split; [|split; [exact Y|split; [congruence|exact A']]]. pose proof (cls_lt pd s L LD a na nc d D y H Hd A'). cbn. lia.
    - intros D' E. rewrite Hd6 in E. injection E as <-. rewrite C6. split; [apply (dok_ext scan_ok (cls s) _ d D D2); auto using scan_ok_ext; cbn; try congruence; lia|]. split; [cbn [count_a count_z curr_stamp set_erased D2]; lia|]. split; [intros _; left; split; [reflexivity|exact Det]|]. intros _. right. reflexivity.
    - intros _ D3 HD3. rewrite Hd in HD3. injection HD3 as <-. exists D2, [], []. rewrite C6. split; [exact Hd6|]. split; [now rewrite app_nil_r|]. split; [|split; [intros ? []|cbn; lia]]. intros y Hy. destruct (k_cl _ _ _ _ _ K y Hy) as [cy [A _]]. exists cy, cy. auto.
    - intros q Hq. destruct Det as [Det _]. elim (Det q Hq).
    - cbn. congruence. }
  assert (Mk6 : mk s6 LD' []).
  { intros e De Ie He. split; [|intros []]. intros _. destruct (Nat.eq_dec e d) as [->|N]; [rewrite Hd6 in He; injection He as <-; reflexivity|]. rewrite Ho6 in He by auto. apply (Mk e De); auto. subst LD'. destruct (is_null (d_erased D)); [|exact Ie]. destruct Ie as [Ie|Ie]; [congruence|exact Ie]. }
  destruct (gc_ok MC MS pd s6 L LD' a na nc H6 Mk6) as [s7 [L7 [LD7 [E7 [H7 [Mk7 R7]]]]]]; [cbn; congruence|].
  exists s7, L7, LD7. split; [exact E7|]. split; [exact H7|]. split; [exact Mk7|]. rewrite R7. unfold rest3. cbn. congruence.
Qed.

(** ** Calling *)
Lemma given_key f x c ar : f x = Some c -> c_key c = Index_From_First_Arg (c_arg c) ->
  given ar (ent f x) = match Index_From_First_Arg ar with None | Some KVar => true | Some k => has_key f k x || has_key f KVar x end.
Proof.
  intros Hx Hk. unfold given, ent, has_key. rewrite Hx, Hk. cbn [earg]. destruct ar, (c_arg c); cbn; try reflexivity; now rewrite orb_false_r.
Qed.
Lemma init_scok f d D l ar sc0 : dok scan_ok f d D l -> curr_stamp D < ALIVE ->
  sc0 = match Index_From_First_Arg ar with
    | None | Some KVar => Scan d (count_z D) (curr_stamp D) true (scan_of D (Some Seq)) None None
    | Some i => Scan d (count_z D) (curr_stamp D) false (scan_of D (Some i)) (scan_of D (Some KVar)) None
    end -> exists kx sx sv, scok f (set_stamp D (curr_stamp D + 1)) l sc0 kx sx sv (filter (fun x => given ar (ent f x)) (filter (live f) l)) /\ s_dyn sc0 = d.
Proof.
  intros K Hs ->. pose proof K as [KC KS KQ KH]. set (rt := filter _ _).
  assert (Srt : srt f rt) by (apply srt_filter, srt_filter, KS).
  assert (Vis : forall sq px pv x, In x l -> (vis f (Scan d (count_z D) (curr_stamp D) sq px pv None) x <-> live f x = true)).
  { intros sq px pv x Hx. destruct (KC x Hx) as [c [A [_ [B [C _]]]]]. unfold vis, no, stamp, live. rewrite A. cbn [s_stop s_stamp]. rewrite Z.eqb_eq. destruct C as [C|C]; (split; [intros [X Y]|intros X]); try split; lia. }
  assert (Suf : forall k, exists px sx, sub f k l = px ++ sx /\ scan_of D (Some k) = nxt sx None /\ forall x, In x px -> live f x = false).
  { intros k. specialize (KH k). unfold chk in KH. cbn. destruct (d_hd D k) as [h|]; [|destruct KH as [_ ->]; exists [], []; split; [reflexivity|split; [reflexivity|intros ? []]]]. destruct KH as [_ [pre [suf [S1 [S2 [S3 _]]]]]]. exists pre, suf. auto. }
  assert (InS : forall k px sx x, sub f k l = px ++ sx -> (forall x, In x px -> live f x = false) -> (In x sx /\ live f x = true <-> In x (sub f k l) /\ live f x = true)).
  { intros k px sx x E X. rewrite E, in_app_iff. split; [tauto|]. intros [[Y|Y] Z]; [apply X in Y; congruence|auto]. }
  assert (SubK : forall k x, k <> Seq -> (In x (sub f k l) <-> In x l /\ has_key f k x = true)). { intros k x N. replace (sub f k l) with (filter (has_key f k) l) by (destruct k; auto; now elim N). apply filter_In. }
  assert (InR : forall x, In x rt <-> In x l /\ live f x = true /\ given ar (ent f x) = true) by (intros x; unfold rt; rewrite !filter_In; tauto).
  assert (Giv : forall x, In x l -> given ar (ent f x) = match Index_From_First_Arg ar with None | Some KVar => true | Some k => has_key f k x || has_key f KVar x end). { intros x Hx. destruct (KC x Hx) as [c [A [_ [_ [_ B]]]]]. now apply (given_key f x c). }
  assert (CaseSeq : match Index_From_First_Arg ar with None | Some KVar => True | _ => False end -> exists kx sx sv, scok f (set_stamp D (curr_stamp D + 1)) l (Scan d (count_z D) (curr_stamp D) true (scan_of D (Some Seq)) None None) kx sx sv rt).
  { intros Hi. destruct (Suf Seq) as [px [sx [S1 [S2 S3]]]]. exists Seq, sx, []. constructor; cbn [s_seq s_xxx s_var s_stop s_stamp count_z curr_stamp set_stamp]; auto; try lia.
    - eauto.
    - exists (sub f KVar l). now rewrite app_nil_r.
    - intros x. rewrite InR. assert (Il : In x sx -> In x l) by (intros X; apply (sub_in f Seq); rewrite S1; apply in_or_app; now right). split.
      + intros [A [B C]]. split; [left; apply (InS Seq px sx x S1 S3); split; [exact A|exact B]|]. now apply Vis.
      + intros [[A|[]] B]. specialize (Il A). apply Vis in B; [|exact Il]. split; [exact Il|]. split; [exact B|]. rewrite Giv by auto. destruct (Index_From_First_Arg ar) as [[]|]; try contradiction; reflexivity. }
  assert (CaseInd : forall k, Index_From_First_Arg ar = Some k -> k <> Seq -> k <> KVar -> exists kx sx sv, scok f (set_stamp D (curr_stamp D + 1)) l (Scan d (count_z D) (curr_stamp D) false (scan_of D (Some k)) (scan_of D (Some KVar)) None) kx sx sv rt).
  { intros k Hi N1 N2. destruct (Suf k) as [px [sx [S1 [S2 S3]]]]. destruct (Suf KVar) as [pv [sv [T1 [T2 T3]]]]. exists k, sx, sv. constructor; cbn [s_seq s_xxx s_var s_stop s_stamp count_z curr_stamp set_stamp]; auto; try lia.
    - eauto.
    - eauto.
    - intros x. rewrite InR.
      assert (Il : In x sx -> In x l) by (intros X; apply (sub_in f k); rewrite S1; apply in_or_app; now right). assert (Iv : In x sv -> In x l) by (intros X; apply (sub_in f KVar); rewrite T1; apply in_or_app; now right).
      assert (Gk : In x l -> given ar (ent f x) = has_key f k x || has_key f KVar x) by (intros Hx; rewrite Giv by auto; rewrite Hi; destruct k; auto; now elim N2). split.
      + intros [A [B C]]. split; [|now apply Vis]. rewrite Gk in C by auto. apply orb_true_iff in C. destruct C as [C|C]; [left; apply (InS k px sx x S1 S3)|right; apply (InS KVar pv sv x T1 T3)]; (split; [apply SubK; [auto; discriminate|auto]|exact B]).
      + intros [A B]. assert (Hl : In x l) by tauto. apply Vis in B; [|exact Hl]. split; [exact Hl|]. split; [exact B|]. rewrite Gk by auto. apply orb_true_iff. destruct A as [A|A].
        * left. apply (SubK k x N1). apply (InS k px sx x S1 S3). auto.
        * right. apply (SubK KVar x); [discriminate|]. apply (InS KVar pv sv x T1 T3). auto. }
  destruct (Index_From_First_Arg ar) as [k|] eqn:Ei; [destruct k|].
  - destruct ar; discriminate.
  - destruct (CaseSeq I) as [kx [sx [sv S]]]. exists kx, sx, sv. auto.
  - destruct (CaseInd KLst eq_refl) as [kx [sx [sv S]]]; try discriminate. exists kx, sx, sv. auto.
  - destruct (CaseInd (KAtm n) eq_refl) as [kx [sx [sv S]]]; try discriminate. exists kx, sx, sv. auto.
  - destruct (CaseInd (KInt n) eq_refl) as [kx [sx [sv S]]]; try discriminate. exists kx, sx, sv. auto.
  - destruct (CaseInd (KStc n) eq_refl) as [kx [sx [sv S]]]; try discriminate. exists kx, sx, sv. auto.
  - destruct (CaseSeq I) as [kx [sx [sv S]]]. exists kx, sx, sv. auto.
Qed.
