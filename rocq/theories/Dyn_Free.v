(** Removing erased clauses. *)
Require Import ZArith List Bool Lia Arith Sorted.
Require Import Verif.Heap_Model Verif.Dyn_Model Verif.Dyn_Chain Verif.Dyn_Inv Verif.Dyn_Add.
Import ListNotations.
Open Scope Z_scope.

Definition rest1 (s : st) := (nextc s, nextd s, pdyn s, fdyn s, longest s, stk s, env s, cur s).
Lemma rest_rest1 s s' : rest s' = rest s -> rest1 s' = rest1 s.
Proof. unfold rest, rest1. congruence. Qed.

Lemma scan_gc_remove f g h h' a x b : (forall y, In y (a ++ b) -> live g y = live f y) -> scan_gc f h (a ++ x :: b) -> h_scan h' = match a with [] => nxt b None | _ => h_scan h end -> scan_gc g h' (a ++ b).
Proof.
  intros Lv [A|[z [m [A B]]]] E.
  - left. rewrite E. destruct a; [reflexivity|]. rewrite A. reflexivity.
  - destruct a as [|w a]; [left; exact E|]. cbn in A. injection A as -> _. right. exists z, (a ++ b). split; [reflexivity|]. rewrite Lv by now left. exact B.
Qed.
Lemma lst_nil a : lst None a = None -> a = [].
Proof. destruct a as [|y a _] using rev_ind; [reflexivity|]. rewrite lst_snoc. discriminate. Qed.
Lemma nxt_nil b : nxt b None = None -> b = [].
Proof. destruct b; [reflexivity|discriminate]. Qed.

Lemma unlink_ok s d D l x : dyns s d = Some D -> dok scan_gc (cls s) d D l -> In x l ->
  exists s' D' a b, l = a ++ x :: b /\ Unlink_And_Free_Clause s x = Ret s' /\ rest1 s' = rest1 s /\ nb_erased s' = nb_erased s - 1 /\
    (forall e, dyns s' e = upd (dyns s) d (Some D') e) /\ drest D' = drest D /\ dok scan_gc (cls s') d D' (a ++ b) /\ cls s' x = None /\
    (forall y, ~ In y l -> cls s' y = cls s y) /\ (forall y c, y <> x -> cls s y = Some c -> exists c', cls s' y = Some c' /\ simc c c').
Proof.
  intros Hd K Ix. pose proof K as [KC KS KQ KH]. pose proof (in_split _ _ Ix) as [a [b El]]. subst l.
  pose proof (srt_nodup _ _ KS) as ND. assert (Nx : ~ In x (a ++ b)) by (apply NoDup_remove_2 in ND; exact ND).
  destruct (KC x Ix) as [c [Hx [Hcd [Hn [Hst Hk]]]]].
  unfold Unlink_And_Free_Clause, getc at 1. rewrite Hx. cbn [bind]. rewrite Hcd.
  pose proof (KH Seq) as HS. unfold chk in HS. destruct (d_hd D Seq) as [h|] eqn:Hh; [|now elim KQ]. cbn [sub] in HS. destruct HS as [HS1 HS2].
  destruct (remove_ok s d Seq x D h a b Hd Hh ND HS1) as [s1 [D1 [h1 [E1 [R1 [Dy1 [[H1 [H1' H1'']] [C1 [C1' [_ [Ch1 Sc1]]]]]]]]]]].
  rewrite E1. cbn [bind].
  assert (C1x : cls s1 x = Some c) by (rewrite C1; auto).
  assert (Sim1 : forall y c, cls s y = Some c -> exists c', cls s1 y = Some c' /\ simc c c').
  { intros y c1 Hy. destruct (C1' y c1 Hy) as [c' [A B]]. exists c'. split; [exact A|eapply recell_simc; eauto]. }
  assert (Ind1 : forall k y c, k <> Seq -> cls s y = Some c -> cf (cls s1) k y = cf (cls s) k y).
  { intros k y c1 Nk Hy. destruct (C1' y c1 Hy) as [c' [A B]]. unfold cf. rewrite A, Hy. cbn. f_equal. apply (recell_other Seq); [exact B|]. destruct k; cbn; [now elim Nk|..]; discriminate. }
  assert (Iab : forall y, In y (a ++ b) -> In y (a ++ x :: b) /\ y <> x). { intros y Hy. split; [apply in_app_iff in Hy; apply in_app_iff; cbn; tauto|]. intros ->. contradiction. }
  (* the end of the function *)
  set (fin := fun s2 : st => Free_Clause s2 x).
  assert (Fin : forall s2 D2, rest s2 = rest s -> (forall e, dyns s2 e = upd (dyns s) d (Some D2) e) -> drest D2 = drest D -> d_hd D2 Seq <> None ->
     (forall y c, cls s y = Some c -> exists c', cls s2 y = Some c' /\ simc c c') -> (forall y, ~ In y (a ++ x :: b) -> cls s2 y = cls s y) ->
     (forall k g, (forall y, y <> x -> g y = cls s2 y) -> (forall y, In y (a ++ b) -> same1 (cls s) g y) -> chk scan_gc g D2 k (sub (cls s) k (a ++ b))) ->
     exists s' D' a0 b0, a ++ x :: b = a0 ++ x :: b0 /\ Free_Clause s2 x = Ret s' /\ rest1 s' = rest1 s /\ nb_erased s' = nb_erased s - 1 /\
    (forall e, dyns s' e = upd (dyns s) d (Some D') e) /\ drest D' = drest D /\ dok scan_gc (cls s') d D' (a0 ++ b0) /\ cls s' x = None /\
    (forall y, ~ In y (a ++ x :: b) -> cls s' y = cls s y) /\ (forall y c, y <> x -> cls s y = Some c -> exists c', cls s' y = Some c' /\ simc c c')).
  { intros s2 D2 R Dy DR Q Sim Out Ch. unfold Free_Clause, getc. destruct (Sim x c Hx) as [c2 [Hx2 _]]. rewrite Hx2. cbn [bind].
    eexists _, D2, a, b. split; [reflexivity|]. split; [reflexivity|]. split; [unfold rest, rest1 in *; cbn; congruence|]. split; [unfold rest in R; cbn; congruence|]. split; [exact Dy|]. split; [exact DR|].
    set (g := cls _). assert (G : forall y, y <> x -> g y = cls s2 y) by (intros y N; subst g; cbn; now apply upd_neq).
    assert (B : forall y, In y (a ++ b) -> same1 (cls s) g y).
    { intros y Hy. destruct (Iab y Hy) as [I N]. destruct (KC y I) as [cy [Hy1 _]]. destruct (Sim y cy Hy1) as [c' [A1 [A2 [A3 _]]]]. exists cy, c'. rewrite G by auto. auto. }
    unfold drest in DR. injection DR as DR1 DR2 DR3 DR4 DR5.
    split; [constructor; auto|split; [subst g; cbn; now rewrite upd_eq|split]].
    - intros y Hy. destruct (B y Hy) as [cy [c' [A1 [A2 [A3 A4]]]]]. destruct (Iab y Hy) as [I N]. destruct (KC y I) as [cy' [X1 [X2 [X3 [X4 X5]]]]]. rewrite X1 in A1. injection A1 as <-. exists c'. split; [exact A2|].
      rewrite (attr_dyn _ _ A3), (attr_no _ _ A3), (attr_key _ _ A3), (attr_arg _ _ A3), A4, DR1, DR2, DR3. auto.
    - apply (srt_ext (cls s)); [intros y Hy; symmetry; now apply same1_no, B|]. apply srt_app in KS. destruct KS as [K1 [K2 K3]]. apply srt_cons in K2. apply srt_app. split; [exact K1|]. split; [apply K2|]. intros y z Hy Hz. apply K3; [auto|now right].
    - intros k. rewrite (sub_ext g (cls s)) by (intros y Hy; now apply same1_key, B). apply Ch; auto.
    - intros y Hy. rewrite G; [now apply Out|]. intros ->. contradiction.
    - intros y c1 N Hy. rewrite G by auto. now apply Sim. }
  assert (Sq : forall g, (forall y, In y (a ++ b) -> cf g Seq y = cf (cls s1) Seq y) -> (forall y, In y (a ++ b) -> same1 (cls s) g y) -> chain_ok (cf g Seq) h1 (a ++ b) /\ scan_gc g h1 (a ++ b)).
  { intros g A B. split; [apply (chain_ext (cf (cls s1) Seq)); [intros y Hy; symmetry; now apply A|exact Ch1]|]. apply (scan_gc_remove (cls s) g h h1 a x b); auto. intros y Hy. now apply same1_live, B. }
  assert (Out1 : forall y, ~ In y (a ++ x :: b) -> cls s1 y = cls s y). { intros y N. apply C1. intros H. apply N, Iab, H. }
  assert (Hkx : forall k, k <> Seq -> has_key (cls s) k x = match c_key c with Some k' => chain_eqb k k' | None => false end) by (intros k _; unfold has_key; rewrite Hx; reflexivity).
  assert (Sb : forall k, k <> Seq -> has_key (cls s) k x = false -> sub (cls s) k (a ++ b) = sub (cls s) k (a ++ x :: b)).
  { intros k Nk E. rewrite !sub_app. f_equal. assert (X : forall m, sub (cls s) k m = filter (has_key (cls s) k) m) by (destruct k; auto; now elim Nk). rewrite !X. cbn [filter]. now rewrite E. }
  assert (Oth : forall k D2 g, k <> Seq -> has_key (cls s) k x = false -> d_hd D2 k = d_hd D k -> (forall y, In y (sub (cls s) k (a ++ b)) -> cf g k y = cf (cls s) k y) -> (forall y, In y (a ++ b) -> same1 (cls s) g y) -> chk scan_gc g D2 k (sub (cls s) k (a ++ b))).
  { intros k D2 g Nk E Eh Ec B. apply (chk_ext scan_gc (cls s) g D D2); auto using scan_gc_ext.
    - intros y Hy. apply sub_in in Hy. now apply same1_live, B.
    - rewrite Sb by auto. apply KH. }
  destruct (c_key c) as [k|] eqn:Ek.
  2:{ cbn [bind]. apply (Fin s1 D1); auto.
      - rewrite H1. discriminate.
      - intros k g G B. destruct (is_seq k) eqn:Q.
        + destruct k; try discriminate. unfold chk. rewrite H1. cbn [sub]. apply Sq; auto. intros y Hy. unfold cf. rewrite G; [reflexivity|apply Iab, Hy].
        + assert (Nk : k <> Seq) by (intros ->; discriminate). apply Oth; auto. intros y Hy. apply sub_in in Hy. destruct (Iab y Hy) as [I N]. destruct (KC y I) as [cy [Hy1 _]]. rewrite <- (Ind1 k y cy) by auto. unfold cf. now rewrite G. }
  assert (Nk : k <> Seq). { intros ->. destruct (c_arg c); discriminate. }
  assert (Kx : has_key (cls s) k x = true) by (rewrite Hkx by auto; apply chain_eqb_refl).
  assert (X : forall m, sub (cls s) k m = filter (has_key (cls s) k) m) by (destruct k; auto; now elim Nk).
  assert (Esub : sub (cls s) k (a ++ x :: b) = sub (cls s) k a ++ x :: sub (cls s) k b) by (rewrite !X, filter_app; cbn [filter]; now rewrite Kx).
  pose proof (KH k) as HK. unfold chk in HK. rewrite Esub in HK. destruct (d_hd D k) as [hk|] eqn:Hhk; [|destruct HK as [_ HK]; now destruct (sub (cls s) k a)]. destruct HK as [HK1 HK2].
  assert (HK1' : chain_ok (cf (cls s1) k) hk (sub (cls s) k a ++ x :: sub (cls s) k b)).
  { apply (chain_ext (cf (cls s) k)); [|exact HK1]. intros y Hy. rewrite <- Esub in Hy. apply sub_in in Hy. destruct (KC y Hy) as [cy [Hy1 _]]. symmetry. now apply (Ind1 k y cy). }
  destruct (remove_ok s1 d k x D1 hk (sub (cls s) k a) (sub (cls s) k b)) as [s2 [D2 [h2 [E2 [R2 [Dy2 [[H2 [H2' H2'']] [C2 [C2' [Cx [Ch2 Sc2]]]]]]]]]]]; auto.
  { rewrite Dy1. apply upd_eq. }
  { rewrite H1' by auto. exact Hhk. }
  { rewrite <- Esub. apply (srt_nodup (cls s)), srt_sub, KS. }
  rewrite E2. cbn [bind].
  assert (C2x : cls s2 x = Some c). { rewrite C2; [exact C1x|]. rewrite <- sub_app. intros H. apply sub_in in H. contradiction. }
  unfold getc at 1. rewrite C2x. cbn [bind].
  unfold cf in Cx. rewrite C1x in Cx. cbn in Cx. assert (Ci : c_ind c = Cell (nxt (sub (cls s) k b) None) (lst None (sub (cls s) k a))) by (destruct k; cbn in Cx; congruence).
  rewrite Ci. cbn [c_prev c_next].
  assert (Sim2 : forall y c, cls s y = Some c -> exists c', cls s2 y = Some c' /\ simc c c').
  { intros y c1 Hy. destruct (Sim1 y c1 Hy) as [c2 [A1 B1]]. destruct (C2' y c2 A1) as [c3 [A2 B2]]. exists c3. split; [exact A2|]. eapply simc_trans; [exact B1|eapply recell_simc; eauto]. }
  assert (Out2 : forall y, ~ In y (a ++ x :: b) -> cls s2 y = cls s y). { intros y N. rewrite C2; [now apply Out1|]. rewrite <- sub_app. intros H. apply sub_in in H. apply N, Iab, H. }
  assert (Dy2' : forall e, dyns s2 e = upd (dyns s) d (Some D2) e). { intros e. rewrite Dy2. destruct (Nat.eq_dec e d) as [->|N]; [now rewrite !upd_eq|]. rewrite !upd_neq by auto. rewrite Dy1. now rewrite upd_neq. }
  assert (Ch : forall D3, (forall k', k' <> k -> d_hd D3 k' = d_hd D2 k') -> (d_hd D3 k = Some h2 \/ d_hd D3 k = None /\ in_htbl k = true /\ sub (cls s) k (a ++ b) = []) ->
     forall k' g, (forall y, y <> x -> g y = cls s2 y) -> (forall y, In y (a ++ b) -> same1 (cls s) g y) -> chk scan_gc g D3 k' (sub (cls s) k' (a ++ b))).
  { intros D3 Ho Hk3 k' g G B. destruct (is_seq k') eqn:Q.
    - destruct k'; try discriminate. unfold chk. rewrite Ho by auto. rewrite H2' by auto. rewrite H1. cbn [sub]. apply Sq; auto.
      intros y Hy. destruct (Iab y Hy) as [I N]. destruct (KC y I) as [cy [Hy1 _]]. destruct (Sim1 y cy Hy1) as [c2 [A1 B1]]. destruct (C2' y c2 A1) as [c3 [A2 B2]]. unfold cf. rewrite G by auto. rewrite A1, A2. cbn. f_equal. apply (recell_other k Seq); [exact B2|]. destruct k; cbn; [now elim Nk|..]; discriminate.
    - assert (Nk' : k' <> Seq) by (intros ->; discriminate). destruct (chain_eqb k' k) eqn:Ekk.
      + apply chain_eqb_eq in Ekk. subst k'. destruct Hk3 as [Hk3|[Hk3 [Hk4 Hk5]]]; unfold chk; rewrite Hk3; [|split; assumption].
        rewrite sub_app. split.
        * apply (chain_ext (cf (cls s2) k)); [|exact Ch2]. intros y Hy. rewrite <- sub_app in Hy. apply sub_in in Hy. unfold cf. rewrite G; [reflexivity|apply Iab, Hy].
        * apply (scan_gc_remove (cls s) g hk h2 _ x); auto. intros y Hy. rewrite <- sub_app in Hy. apply sub_in in Hy. now apply same1_live, B.
      + assert (Nkk : k' <> k) by (intros ->; rewrite chain_eqb_refl in Ekk; discriminate). apply Oth; auto.
        * rewrite Hkx by auto. exact Ekk.
        * rewrite Ho, H2', H1' by auto. reflexivity.
        * intros y Hy. pose proof (sub_in _ _ _ _ Hy) as Hyl. destruct (Iab y Hyl) as [I N]. destruct (KC y I) as [cy [Hy1 _]]. rewrite <- (Ind1 k' y cy) by auto. unfold cf. rewrite G by auto. rewrite C2; [reflexivity|].
          rewrite <- sub_app. intros E. pose proof (sub_key _ _ _ _ Nk' Hy) as X1. pose proof (sub_key _ _ _ _ Nk E) as X2. unfold has_key in X1, X2. rewrite Hy1 in X1, X2. destruct (c_key cy) as [kk|]; [|discriminate]. apply chain_eqb_eq in X1. apply chain_eqb_eq in X2. congruence. }
  assert (Q2 : d_hd D2 Seq <> None) by (rewrite H2' by auto; rewrite H1; discriminate).
  assert (Def : exists s' D' a0 b0, a ++ x :: b = a0 ++ x :: b0 /\ fin s2 = Ret s' /\ rest1 s' = rest1 s /\ nb_erased s' = nb_erased s - 1 /\
    (forall e, dyns s' e = upd (dyns s) d (Some D') e) /\ drest D' = drest D /\ dok scan_gc (cls s') d D' (a0 ++ b0) /\ cls s' x = None /\
    (forall y, ~ In y (a ++ x :: b) -> cls s' y = cls s y) /\ (forall y c, y <> x -> cls s y = Some c -> exists c', cls s' y = Some c' /\ simc c c')).
  { apply (Fin s2 D2); auto; try congruence. }
  destruct (in_htbl k) eqn:Eh; [|exact Def]. destruct (lst None (sub (cls s) k a)) eqn:Ea; [exact Def|]. destruct (nxt (sub (cls s) k b) None) eqn:Eb; [exact Def|]. clear Def.
  rewrite Hcd. unfold getd. rewrite Dy2', upd_eq. cbn [bind]. apply (Fin (putd s2 d (set_hd D2 k None)) (set_hd D2 k None)); auto.
  - unfold rest in *. cbn. congruence.
  - intros e. cbn. destruct (Nat.eq_dec e d) as [->|N]; [now rewrite !upd_eq|]. rewrite !upd_neq by auto. rewrite Dy2'. now rewrite upd_neq.
  - rewrite <- H1''. rewrite <- H2''. reflexivity.
  - rewrite set_hd_neq by auto. exact Q2.
  - apply Ch.
    + intros k' N. now apply set_hd_neq.
    + right. split; [apply set_hd_eq|]. split; [reflexivity|]. rewrite sub_app, (lst_nil _ Ea), (nxt_nil _ Eb). reflexivity.
Qed.
