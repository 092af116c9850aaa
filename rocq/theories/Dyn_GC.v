(** The collector. *)
Require Import ZArith List Bool Lia Arith Sorted.
Require Import Verif.Heap_Model Verif.Dyn_Model Verif.Dyn_Spec Verif.Dyn_Chain Verif.Dyn_Inv Verif.Dyn_Add Verif.Dyn_Free Verif.Dyn_Rel.
Import ListNotations.
Open Scope Z_scope.

(** ** Freeing *)
Lemma echain_ext f g l : forall p, (forall x c, In x l -> f x = Some c -> exists c', g x = Some c' /\ c_nexte c' = c_nexte c) -> echain f p l -> echain g p l.
Proof.
  induction l as [|x l IH]; intros p E; [auto|]. intros [A [c [B C]]]. split; [exact A|]. destruct (E x c (or_introl eq_refl) B) as [c' [D F]]. exists c'. split; [exact D|]. rewrite F. apply IH; [|exact C]. intros y cy Hy. apply E. now right.
Qed.
Lemma free_erased_ok : forall er fuel s d D l p, dyns s d = Some D -> dok scan_gc (cls s) d D l -> echain (cls s) p er -> NoDup er -> (forall x, In x er -> In x l) -> (length er < fuel)%nat ->
  exists s' D' l', free_erased fuel s p = Ret s' /\ rest1 s' = rest1 s /\ nb_erased s' = nb_erased s - Z.of_nat (length er) /\ (forall e, dyns s' e = upd (dyns s) d (Some D') e) /\ drest D' = drest D /\
    dok scan_gc (cls s') d D' l' /\ (forall x, In x l' <-> In x l /\ ~ In x er) /\ (forall x, In x er -> cls s' x = None) /\
    (forall y, ~ In y l -> cls s' y = cls s y) /\ (forall y c, ~ In y er -> cls s y = Some c -> exists c', cls s' y = Some c' /\ simc c c').
Proof.
  induction er as [|x er IH]; intros fuel s d D l p Hd K E ND I Hf; (destruct fuel as [|fuel]; [cbn in Hf; lia|]).
  - cbn in E. subst p. cbn. exists s, D, l. split; [reflexivity|]. split; [reflexivity|]. split; [cbn; lia|]. split; [intros e; destruct (Nat.eq_dec e d) as [->|N]; [now rewrite upd_eq|now rewrite upd_neq]|]. split; [reflexivity|]. split; [exact K|]. split; [intros x; tauto|]. split; [intros ? []|]. split; [reflexivity|]. intros y c _ H. exists c. split; [exact H|repeat split].
  - destruct E as [-> [c [Hx E]]]. cbn [free_erased]. unfold getc. rewrite Hx. cbn [bind]. inversion ND as [|? ? Nx ND']; subst.
    destruct (unlink_ok s d D l x Hd K (I x (or_introl eq_refl))) as [s1 [D1 [a [b [-> [E1 [R1 [Nb1 [Dy1 [DR1 [K1 [C1x [C1 C1']]]]]]]]]]]]]. rewrite E1. cbn [bind].
    assert (Nab : ~ In x (a ++ b)). { destruct K as [_ KS _ _]. apply srt_nodup in KS. apply NoDup_remove_2 in KS. exact KS. }
    assert (Mab : forall y, In y (a ++ b) <-> In y (a ++ x :: b) /\ y <> x). { intros y. rewrite !in_app_iff. cbn. split; [|intuition congruence]. intros H. split; [tauto|]. intros ->. apply Nab, in_app_iff, H. }
    destruct (IH fuel s1 d D1 (a ++ b) (c_nexte c)) as [s' [D' [l' [E' [R' [Nb' [Dy' [DR' [K' [M' [F' [C' C'']]]]]]]]]]]]; auto.
    + rewrite Dy1. apply upd_eq.
    + apply (echain_ext (cls s)); [|exact E]. intros y cy Hy Hcy. assert (y <> x) by (intros ->; contradiction). destruct (C1' y cy H Hcy) as [c' [X [_ [_ [Y _]]]]]. eauto.
    + intros y Hy. apply Mab. split; [apply I; now right|]. intros ->. contradiction.
    + cbn in Hf. lia.
    + exists s', D', l'. rewrite E'. split; [reflexivity|]. split; [congruence|]. split; [rewrite Nb', Nb1; cbn [length]; lia|]. split; [intros e; rewrite Dy'; destruct (Nat.eq_dec e d) as [->|N]; [now rewrite !upd_eq|]; rewrite !upd_neq by auto; rewrite Dy1; now rewrite upd_neq|].
      split; [congruence|]. split; [exact K'|]. split; [intros y; rewrite M', Mab; cbn; intuition congruence|]. split; [|split].
      * intros y [<-|Hy]; [|auto]. rewrite C'; [exact C1x|exact Nab].
      * intros y Hy. rewrite C'; [now apply C1|]. intros H. apply Mab in H. tauto.
      * intros y cy Ny Hy. assert (y <> x) by (intros ->; apply Ny; now left). destruct (C1' y cy H Hy) as [c1 [A B]]. destruct (C'' y c1) as [c2 [A2 B2]]; [intros X; apply Ny; now right|exact A|]. exists c2. split; [exact A2|]. eapply simc_trans; eauto.
Qed.
Lemma free_all_ok : forall l fuel s pv, seg (cf (cls s) Seq) pv l None -> NoDup l -> (length l < fuel)%nat ->
  exists s', free_all fuel s (nxt l None) = Ret s' /\ rest1 s' = rest1 s /\ nb_erased s' = nb_erased s - Z.of_nat (length l) /\ dyns s' = dyns s /\ (forall x, In x l -> cls s' x = None) /\ (forall x, ~ In x l -> cls s' x = cls s x).
Proof.
  induction l as [|x l IH]; intros fuel s pv S ND Hf; (destruct fuel as [|fuel]; [cbn in Hf; lia|]).
  - cbn. exists s. split; [reflexivity|]. split; [reflexivity|]. split; [lia|]. split; [reflexivity|]. split; [intros ? []|reflexivity].
  - destruct S as [S1 S2]. inversion ND as [|? ? Nx ND']; subst. cbn [nxt free_all]. unfold cf in S1. destruct (cls s x) as [c|] eqn:Hx; [|discriminate]. cbn in S1. injection S1 as S1. unfold getc. rewrite Hx. cbn [bind]. rewrite S1. cbn [c_next].
    unfold Free_Clause, getc. rewrite Hx. cbn [bind]. set (s1 := with_nb _ _). assert (C1 : forall y, y <> x -> cls s1 y = cls s y) by (intros y N; cbn; now apply upd_neq).
    destruct (IH fuel s1 (Some x)) as [s' [E [R' [Nb [Dy [A B]]]]]]; auto.
    + apply (seg_ext (cf (cls s) Seq)); [|exact S2]. intros y Hy. unfold cf. rewrite C1; [reflexivity|]. intros ->. contradiction.
    + cbn in Hf. lia.
    + exists s'. split; [exact E|]. split; [exact R'|]. split; [rewrite Nb; cbn [length]; unfold s1; cbn [nb_erased with_nb]; lia|]. split; [exact Dy|]. split.
      * intros y [<-|Hy]; [|auto]. rewrite B by auto. unfold s1. cbn. apply upd_eq.
      * intros y Hy. rewrite B by (intros H; apply Hy; now right). apply C1. intros ->. apply Hy. now left.
Qed.

(** ** A change to one predicate *)
Definition dsim (D D' : dynp) : Prop := d_hd D' = d_hd D /\ count_a D' = count_a D /\ count_z D' = count_z D /\ curr_stamp D' = curr_stamp D /\ d_erased D' = d_erased D.
Lemma dsim_refl D : dsim D D.
Proof. repeat split. Qed.
Lemma exact_ext f g b l : (forall x, In x l -> g x = f x) -> exact_er f b l -> exact_er g b l.
Proof.
  intros E [er [A [B [C D]]]]. exists er. split; [exact A|]. split; [|split; [exact C|]].
  - apply (echain_ext f); [|exact B]. intros x c Hx Hc. exists c. split; [|reflexivity]. rewrite E; [exact Hc|]. now apply D.
  - intros x. rewrite D. split; intros [H1 H2]; (split; [exact H1|]); revert H2; unfold live; now rewrite E.
Qed.

Lemma R_step pd s s' L LD LD' a a' na nc na' nc' d D l' L' :
  R pd s L LD a na nc -> cur s = None -> dyns s d = Some D -> (forall e, L' e = upd L d l' e) ->
  (stk s', env s', cur s', nextd s') = (stk s, env s, cur s, nextd s) -> (nextc s <= nextc s')%nat -> na <= na' -> nc <= nc' ->
  (forall e, e <> d -> match dyns s e with Some D => exists D', dyns s' e = Some D' /\ dsim D D' | None => dyns s' e = None end) ->
  (forall e, e <> d -> (In e LD' <-> In e LD)) -> dlist (dyns s') (fdyn s') LD' -> NoDup LD' ->
  (forall y, ~ In y (L d) -> ~ In y l' -> cls s' y = cls s y) -> (forall y, In y l' -> In y (L d) \/ cls s y = None) ->
  (forall y c, In y (L d) \/ In y l' -> cls s' y = Some c -> (y < nextc s')%nat /\ c_dyn c = d /\ dyns s' d <> None /\ In y l') ->
  (forall D', dyns s' d = Some D' -> dok scan_ok (cls s') d D' l' /\ (- 1 - na' <= count_a D' <= -1 /\ 0 <= count_z D' <= na' /\ 0 <= curr_stamp D' <= nc') /\
     (In d LD' -> e_base (d_erased D') = EAll /\ detached pd s d \/ exact_er (cls s') (e_base (d_erased D')) l') /\
     (~ In d LD' -> d_erased D' = e_null /\ (forall x, In x l' -> live (cls s') x = true) \/ is_null (d_erased D') = false)) ->
  (refs s d -> keepd (cls s) (cls s') (dyns s) (dyns s') L L' d) ->
  (forall p, pd p = Some d -> dyns s' d <> None /\ db a' p = map (ent (cls s')) (filter (live (cls s')) l')) ->
  (forall p, pd p <> Some d -> db a' p = db a p) -> (astk a', aenv a', acur a', count a') = (astk a, aenv a, acur a, nextc s') ->
  R pd s' L' LD' a' na' nc'.
Proof.
  intros [Rdok Rcnt Rown Rald Rld Rnd Rin Rout Rpd Rinj Renv Rfr Raenv Rcur Rdb Rcount] Hcur Hd HL Heq Hnc Hna Hnc' Ho HLD Hld Hnd Hc1 Hc2 Hc3 HD' Hk Hp Hdb Ha.
  assert (Ld : L' d = l') by (rewrite HL; apply upd_eq).
  assert (Ln : forall e, e <> d -> L' e = L e) by (intros e N; rewrite HL; now apply upd_neq). clear HL.
  injection Heq as Es Ee Ec En. injection Ha as As Ae Acr Act.
  assert (Kd : forall x, In x (L d) -> exists c, cls s x = Some c /\ c_dyn c = d). { intros x Hx. destruct (k_cl _ _ _ _ _ (Rdok d D Hd) x Hx) as [c [A [B _]]]. eauto. }
  (* clauses of the other predicates *)
  assert (Oth : forall y c, cls s y = Some c -> c_dyn c <> d -> cls s' y = Some c).
  { intros y c Hy N. rewrite Hc1; [exact Hy| |].
    - intros H. destruct (Kd y H) as [c' [A B]]. congruence.
    - intros H. destruct (Hc2 y H) as [H1|H1]; [destruct (Kd y H1) as [c' [A B]]; congruence|congruence]. }
  assert (Lo : forall e D1 x, e <> d -> dyns s e = Some D1 -> In x (L e) -> exists c, cls s x = Some c /\ cls s' x = Some c /\ c_dyn c = e).
  { intros e D1 x N He Hx. destruct (k_cl _ _ _ _ _ (Rdok e D1 He) x Hx) as [c [A [B _]]]. exists c. split; [exact A|]. split; [apply Oth; congruence|exact B]. }
  assert (Bk : forall e D', e <> d -> dyns s' e = Some D' -> exists D1, dyns s e = Some D1 /\ dsim D1 D').
  { intros e D' N He. specialize (Ho e N). destruct (dyns s e) as [D1|]; [|congruence]. destruct Ho as [D2 [A B]]. rewrite A in He. injection He as <-. eauto. }
  assert (Keep : forall e, e <> d -> keepd (cls s) (cls s') (dyns s) (dyns s') L L' e).
  { intros e N D1 He. pose proof (Ho e N) as H. rewrite He in H. destruct H as [D' [A [B1 [B2 [B3 [B4 B5]]]]]]. exists D', [], []. split; [exact A|]. split; [rewrite Ln by auto; now rewrite app_nil_r|]. split; [|split; [intros ? []|lia]].
    intros x Hx. destruct (Lo e D1 x N He Hx) as [c [X1 [X2 _]]]. exists c, c. auto. }
  assert (Env : forall x, In x (env s ++ flat_map frame_env (stk s)) -> cls s' x <> None /\ ent (cls s') x = ent (cls s) x).
  { intros x Hx. pose proof (Renv x Hx) as H. destruct (cls s x) as [c|] eqn:Hcx; [|now elim H]. destruct (Nat.eq_dec (c_dyn c) d) as [E|N].
    - destruct (Hk (or_intror (ex_intro _ x (ex_intro _ c (conj Hx (conj Hcx E))))) D Hd) as [D' [A [B [_ [_ [K _]]]]]].
      destruct (Rown x c Hcx) as [_ [_ Ix]]. rewrite E in Ix. specialize (K x Ix). split; [|eapply evol_ent; eauto]. destruct K as [c1 [c2 [_ [-> _]]]]. discriminate.
    - rewrite (Oth x c Hcx N). split; [discriminate|]. unfold ent. now rewrite (Oth x c Hcx N), Hcx. }
  constructor.
  - intros e D' He. destruct (Nat.eq_dec e d) as [->|N]; [rewrite Ld; now apply HD'|]. rewrite Ln by auto. destruct (Bk e D' N He) as [D1 [A [B1 [B2 [B3 [B4 B5]]]]]].
    apply (dok_ext scan_ok (cls s) (cls s') e D1 D'); auto using scan_ok_ext; try lia; try congruence.
    intros x Hx. destruct (Lo e D1 x N A Hx) as [c [X1 [X2 _]]]. congruence.
  - intros e D' He. destruct (Nat.eq_dec e d) as [->|N]; [now apply HD'|]. destruct (Bk e D' N He) as [D1 [A [B1 [B2 [B3 [B4 B5]]]]]]. specialize (Rcnt e D1 A). lia.
  - intros x c Hx. destruct (in_dec Nat.eq_dec x (L d)) as [I1|I1]; [|destruct (in_dec Nat.eq_dec x l') as [I2|I2]].
    + destruct (Hc3 x c (or_introl I1) Hx) as [A [B [C E]]]. split; [exact A|]. rewrite B, Ld. split; [|exact E]. destruct (dyns s' d); [eauto|now elim C].
    + destruct (Hc3 x c (or_intror I2) Hx) as [A [B [C E]]]. split; [exact A|]. rewrite B, Ld. split; [|exact E]. destruct (dyns s' d); [eauto|now elim C].
    + rewrite Hc1 in Hx by auto. destruct (Rown x c Hx) as [A [[D1 B] C]]. split; [lia|]. destruct (Nat.eq_dec (c_dyn c) d) as [E|N]; [rewrite E in C; contradiction|]. rewrite Ln by auto. split; [|exact C]. specialize (Ho _ N). rewrite B in Ho. destruct Ho as [D2 [X _]]. eauto.
  - intros e D' He. rewrite En. destruct (Nat.eq_dec e d) as [->|N]; [eauto|]. destruct (Bk e D' N He) as [D1 [A _]]. eauto.
  - exact Hld.
  - exact Hnd.
  - intros e D' Ie He. destruct (Nat.eq_dec e d) as [->|N].
    + rewrite Ld. destruct (HD' D' He) as [_ [_ [H _]]]. specialize (H Ie). destruct H as [[H1 [H2 H3]]|H]; [left; split; [exact H1|split; [exact H2|]]; now rewrite Es|now right].
    + rewrite Ln by auto. destruct (Bk e D' N He) as [D1 [A [B1 [B2 [B3 [B4 B5]]]]]]. rewrite B5. apply HLD in Ie; auto. destruct (Rin e D1 Ie A) as [[H1 [H2 H3]]|H]; [left; split; [exact H1|split; [exact H2|]]; now rewrite Es|right].
      apply (exact_ext (cls s)); [|exact H]. intros x Hx. destruct (Lo e D1 x N A Hx) as [c [X1 [X2 _]]]. congruence.
  - intros e D' Ie He. destruct (Nat.eq_dec e d) as [->|N]; [rewrite Ld; destruct (HD' D' He) as [_ [_ [_ H]]]; auto|]. rewrite Ln by auto. destruct (Bk e D' N He) as [D1 [A [B1 [B2 [B3 [B4 B5]]]]]]. rewrite B5.
    destruct (Rout e D1) as [[H1 H2]|H]; [intros X; apply Ie, HLD; auto|exact A| |now right]. left. split; [exact H1|]. intros x Hx. specialize (H2 x Hx). destruct (Lo e D1 x N A Hx) as [c [X1 [X2 _]]]. unfold live in *. rewrite X1 in H2. now rewrite X2.
  - intros p e He. destruct (Nat.eq_dec e d) as [->|N]; [destruct (Hp p He) as [X _]; destruct (dyns s' d); [eauto|now elim X]|]. destruct (Rpd p e He) as [D1 A]. specialize (Ho e N). rewrite A in Ho. destruct Ho as [D2 [X _]]. eauto.
  - exact Rinj.
  - rewrite Ee, Es. intros x Hx. now apply Env.
  - rewrite Es, As. apply (Forall2_impl_in (frel (cls s) (dyns s) pd L)); [|exact Rfr]. intros fr af Hfr. intros F. eapply frel_keep; [exact F| | |auto].
    + intros k sc e ->. destruct (Nat.eq_dec (s_dyn sc) d) as [E|N]; [|now apply Keep]. rewrite E. apply Hk. left. exists k, sc, e. auto.
    + intros x Hx. apply Env. apply in_or_app. right. apply in_flat_map. eauto.
  - rewrite Ee, Ae, Raenv. apply map_ext_in. intros x Hx. symmetry. apply Env, in_or_app. now left.
  - rewrite Ec, Hcur, Acr. destruct Rcur as [Rc _]. rewrite Hcur in Rc. split; [exact Rc|discriminate].
  - intros p. destruct (pd p) as [e|] eqn:Ep.
    + destruct (Nat.eq_dec e d) as [->|N].
      * cbn. rewrite Ld. now apply Hp.
      * rewrite Hdb by congruence. rewrite Rdb, Ep. cbn. rewrite Ln by auto. destruct (Rpd p e Ep) as [D1 A]. rewrite (filter_ext_in' (live (cls s')) (live (cls s))).
        -- apply map_ext_in. intros x Hx. apply filter_In in Hx. destruct (Lo e D1 x N A (proj1 Hx)) as [c [X1 [X2 _]]]. unfold ent. now rewrite X1, X2.
        -- intros x Hx. destruct (Lo e D1 x N A Hx) as [c [X1 [X2 _]]]. unfold live. now rewrite X1, X2.
    + rewrite Hdb by congruence. now rewrite Rdb, Ep.
  - exact Act.
Qed.

(** ** Marks *)
Definition remark (D : dynp) (m : bool) : dynp := set_erased D (EP (e_base (d_erased D)) m).
Definition mrel (s s' : st) : Prop := cls s' = cls s /\ rest s' = rest s /\
  forall e, match dyns s e with Some D => exists m, dyns s' e = Some (remark D m) /\ (e_mark (d_erased D) = true -> m = true) | None => dyns s' e = None end.
Lemma remark_id D : remark D (e_mark (d_erased D)) = D.
Proof. destruct D as [? ? ? ? [b m] ?]. reflexivity. Qed.
Lemma mrel_refl s : mrel s s.
Proof. split; [reflexivity|]. split; [reflexivity|]. intros e. destruct (dyns s e) as [D|]; [|reflexivity]. exists (e_mark (d_erased D)). now rewrite remark_id. Qed.
Lemma mrel_trans s s1 s2 : mrel s s1 -> mrel s1 s2 -> mrel s s2.
Proof.
  intros [A [B C]] [E [F G]]. split; [congruence|]. split; [congruence|]. intros e. specialize (C e). specialize (G e). destruct (dyns s e) as [D|]; [|now rewrite C in G].
  destruct C as [m [C1 C2]]. rewrite C1 in G. destruct G as [m' [G1 G2]]. exists m'. split; [exact G1|]. intros H. apply G2. cbn. auto.
Qed.
Definition marked (s : st) (d : nat) : Prop := forall D, dyns s d = Some D -> e_mark (d_erased D) = true.
Lemma marked_mono s s' d : mrel s s' -> marked s d -> marked s' d.
Proof.
  intros [_ [_ C]] M D Hd. specialize (C d). destruct (dyns s d) as [D0|] eqn:E; [|congruence]. destruct C as [m [C1 C2]]. rewrite C1 in Hd. injection Hd as <-. cbn. apply C2. now apply M.
Qed.
Lemma dseg_ext g g' l : forall nx, (forall d D, In d l -> g d = Some D -> exists D', g' d = Some D' /\ d_next D' = d_next D) -> dseg g l nx -> dseg g' l nx.
Proof.
  induction l as [|d l IH]; intros nx E; [auto|]. intros [[D [A B]] C]. split; [|apply IH; [intros e De He; apply E; now right|exact C]]. destruct (E d D (or_introl eq_refl) A) as [D' [X Y]]. exists D'. split; [exact X|congruence].
Qed.
Lemma dseg_in g l nx d : dseg g l nx -> In d l -> exists D, g d = Some D.
Proof. induction l as [|e l IH]; [intros _ []|]. intros [[D [A _]] B] [->|H]; [eauto|auto]. Qed.
Lemma dseg_app g a : forall b nx, dseg g (a ++ b) nx <-> dseg g a (nxt b nx) /\ dseg g b nx.
Proof. induction a as [|d a IH]; intros b nx; cbn; [tauto|]. rewrite IH, nxt_app. tauto. Qed.

(** a change of the mark alone *)
Lemma remark_ok pd s L LD a na nc d D m : R pd s L LD a na nc -> cur s = None -> dyns s d = Some D -> (m = false -> In d LD) -> R pd (putd s d (remark D m)) L LD a na nc.
Proof.
  intros H Hcur Hd Hm. pose proof H as [Rdok Rcnt Rown Rald Rld Rnd Rin Rout Rpd Rinj Renv Rfr Raenv Rcur Rdb Rcount].
  set (s' := putd s d (remark D m)). assert (Hd' : dyns s' d = Some (remark D m)) by (cbn; apply upd_eq). assert (Ho : forall e, e <> d -> dyns s' e = dyns s e) by (intros e N; cbn; now apply upd_neq).
  apply (R_step pd s s' L LD LD a a na nc na nc d D (L d) L); auto; try reflexivity; try lia.
  - intros e. unfold upd. destruct (Nat.eqb e d) eqn:E; [apply Nat.eqb_eq in E; now subst|reflexivity].
  - intros e N. rewrite Ho by auto. destruct (dyns s e); [|reflexivity]. eexists. split; [reflexivity|apply dsim_refl].
  - destruct Rld as [R1 R2]. split; [exact R1|]. apply (dseg_ext (dyns s)); [|exact R2]. intros e De _ He. destruct (Nat.eq_dec e d) as [->|N]; [rewrite Hd in He; injection He as <-; eexists; split; [exact Hd'|reflexivity]|]. rewrite Ho by auto. eauto.
  - intros y c Hyd0 Hy. cbn in Hy. assert (Hyd : In y (L d)) by tauto. destruct (k_cl _ _ _ _ _ (Rdok d D Hd) y Hyd) as [c1 [A [B _]]]. rewrite A in Hy. injection Hy as <-. split; [eapply Rown; eauto|]. split; [exact B|]. split; [rewrite Hd'; discriminate|exact Hyd].
  - intros D' E. rewrite Hd' in E. injection E as <-. split; [apply (dok_ext scan_ok (cls s) _ d D _); auto using scan_ok_ext; cbn; lia|]. split; [exact (Rcnt d D Hd)|]. split; [intros I; exact (Rin d D I Hd)|]. intros NI. right. cbn. destruct m; [now destruct (e_base (d_erased D))|]. now elim NI; apply Hm.
  - intros _ D1 HD1. rewrite Hd in HD1. injection HD1 as <-. exists (remark D m), [], []. split; [exact Hd'|]. split; [now rewrite app_nil_r|]. split; [|split; [intros ? []|cbn; lia]]. intros x Hx. destruct (k_cl _ _ _ _ _ (Rdok d D Hd) x Hx) as [c1 [A _]]. exists c1, c1. auto.
  - intros p Hp. split; [rewrite Hd'; discriminate|]. rewrite Rdb, Hp. reflexivity.
Qed.
Lemma mark_ok pd s L LD a na nc d D : R pd s L LD a na nc -> cur s = None -> dyns s d = Some D ->
  exists s', mark s d = Ret s' /\ R pd s' L LD a na nc /\ mrel s s' /\ marked s' d.
Proof.
  intros H Hcur Hd. unfold mark, getd. rewrite Hd. cbn [bind]. exists (putd s d (remark D true)). split; [reflexivity|]. split; [apply remark_ok; auto; discriminate|].
  split; [split; [reflexivity|split; [reflexivity|]]|].
  - intros e. cbn. destruct (Nat.eq_dec e d) as [->|N]; [rewrite Hd, upd_eq; exists true; auto|]. rewrite upd_neq by auto. destruct (dyns s e) as [D1|]; [|reflexivity]. exists (e_mark (d_erased D1)). now rewrite remark_id.
  - intros D1. cbn. rewrite upd_eq. intros [= <-]. reflexivity.
Qed.
Lemma linked_nonnull pd s L LD a na nc d D : R pd s L LD a na nc -> In d LD -> dyns s d = Some D -> is_null (d_erased D) = false.
Proof.
  intros H I Hd. destruct (r_in _ _ _ _ _ _ _ H d D I Hd) as [[A _]|[er [A [B _]]]]; destruct (d_erased D) as [b m]; cbn in *; [now subst b|]. destruct er as [|x er]; [now elim A|]. destruct B as [B _]. injection B as ->. reflexivity.
Qed.
Lemma mark_scans_ok pd : forall l s L LD a na nc, R pd s L LD a na nc -> cur s = None -> (forall f, In f l -> In f (stk s)) ->
  exists s', mark_scans s l = Ret s' /\ R pd s' L LD a na nc /\ mrel s s' /\ forall k sc e, In (FScan k sc e) l -> In (s_dyn sc) LD -> marked s' (s_dyn sc).
Proof.
  induction l as [|f l IH]; intros s L LD a na nc H Hcur Hi.
  - exists s. split; [reflexivity|]. split; [exact H|]. split; [apply mrel_refl|intros ? ? ? []].
  - destruct f as [e|k sc e]; cbn [mark_scans].
    + destruct (IH s L LD a na nc H Hcur) as [s' [A [B [C D]]]]; [intros f Hf; apply Hi; now right|]. exists s'. split; [exact A|]. split; [exact B|]. split; [exact C|]. intros k sc e' [E|E]; [discriminate|eauto].
    + destruct (Forall2_in_l _ _ _ _ (r_fr _ _ _ _ _ _ _ H) (Hi _ (or_introl eq_refl))) as [af [_ Fr]]. destruct af as [|p k' al e']; [destruct Fr|]. destruct Fr as [_ [_ [_ [D [c0 [kx [sx [sv [rt [Hd _]]]]]]]]]].
      unfold getd. rewrite Hd. cbn [bind].
      assert (P : exists s1, (if is_null (d_erased D) then Ret s else mark s (s_dyn sc)) = Ret s1 /\ R pd s1 L LD a na nc /\ mrel s s1 /\ (In (s_dyn sc) LD -> marked s1 (s_dyn sc))).
      { destruct (is_null (d_erased D)) eqn:E.
        - exists s. split; [reflexivity|]. split; [exact H|]. split; [apply mrel_refl|]. intros I. rewrite (linked_nonnull pd s L LD a na nc _ D H I Hd) in E. discriminate.
        - destruct (mark_ok pd s L LD a na nc (s_dyn sc) D H Hcur Hd) as [s1 [A [B [C M]]]]. exists s1. auto. }
      destruct P as [s1 [E1 [H1 [M1 Mk1]]]]. rewrite E1. cbn [bind].
      assert (X : rest s1 = rest s) by apply M1. unfold rest in X. injection X as X1 X2 X3 X4 X5 X6 X7 X8 X9.
      destruct (IH s1 L LD a na nc H1) as [s' [A [B [C Mk]]]]; [congruence|intros f Hf; rewrite X7; apply Hi; now right|].
      exists s'. split; [exact A|]. split; [exact B|]. split; [eapply mrel_trans; eauto|]. intros k1 sc1 e1 [E|E]; [|eauto]. injection E as <- <- <-. intros I. eapply marked_mono; [exact C|auto].
Qed.
Lemma mark_envs_ok pd : forall l s L LD a na nc, R pd s L LD a na nc -> cur s = None -> (forall x, In x l -> cls s x <> None) ->
  exists s', mark_envs s l = Ret s' /\ R pd s' L LD a na nc /\ mrel s s' /\ forall x c, In x l -> cls s x = Some c -> marked s' (c_dyn c).
Proof.
  induction l as [|x l IH]; intros s L LD a na nc H Hcur Hi.
  - exists s. split; [reflexivity|]. split; [exact H|]. split; [apply mrel_refl|intros ? ? []].
  - cbn [mark_envs]. pose proof (Hi x (or_introl eq_refl)) as Hx. destruct (cls s x) as [c|] eqn:Hcx; [|now elim Hx]. unfold getc. rewrite Hcx. cbn [bind].
    destruct (r_own _ _ _ _ _ _ _ H x c Hcx) as [_ [[D Hd] _]]. destruct (mark_ok pd s L LD a na nc (c_dyn c) D H Hcur Hd) as [s1 [E1 [H1 [M1 Mk1]]]]. rewrite E1. cbn [bind].
    assert (X : rest s1 = rest s) by apply M1. unfold rest in X. injection X as X1 X2 X3 X4 X5 X6 X7 X8 X9. assert (Y : cls s1 = cls s) by apply M1.
    destruct (IH s1 L LD a na nc H1) as [s' [A [B [C Mk]]]]; [congruence|intros y Hy; rewrite Y; apply Hi; now right|].
    exists s'. split; [exact A|]. split; [exact B|]. split; [eapply mrel_trans; eauto|]. intros y cy [<-|Hy] Hcy; [|apply (Mk y); [exact Hy|now rewrite Y]]. rewrite Hcx in Hcy. injection Hcy as <-. eapply marked_mono; eauto.
Qed.

(** ** Cleaning *)
Lemma cls_lt pd s L LD a na nc d D x : R pd s L LD a na nc -> dyns s d = Some D -> In x (L d) -> (x < nextc s)%nat.
Proof. intros H Hd Hx. destruct (k_cl _ _ _ _ _ (r_dok _ _ _ _ _ _ _ H d D Hd) x Hx) as [c [A _]]. eapply r_own; eauto. Qed.
Lemma filter_live_eq f g l l' : srt f l -> srt g l' -> (forall x, In x l' <-> In x l /\ live f x = true) -> (forall x, In x l' -> same1 f g x) -> map (ent g) (filter (live g) l') = map (ent f) (filter (live f) l).
Proof.
  intros S1 S2 M Sm.
  assert (filter (live g) l' = l'). { rewrite (filter_ext_in' (live g) (fun _ => true)); [clear; induction l'; cbn; congruence|]. intros x Hx. rewrite (same1_live f g x) by auto. now apply M. } rewrite H. clear H.
  assert (filter (live f) l = l').
  { apply (srt_unique f); [now apply srt_filter| |].
    - apply (srt_ext g); [|exact S2]. intros x Hx. now apply same1_no, Sm.
    - intros x. rewrite filter_In. symmetry. apply M. }
  rewrite H. apply map_ext_in. intros x Hx. destruct (Sm x Hx) as [c [c' [A [B [C _]]]]]. unfold ent. rewrite A, B. now rewrite (attr_arg _ _ C), (attr_data _ _ C).
Qed.
Lemma clean_step pd s s1 L LD LD' a na nc d D : R pd s L LD a na nc -> cur s = None -> dyns s d = Some D -> In d LD -> e_mark (d_erased D) = false -> ~ refs s d ->
  cls s1 = cls s -> rest1 s1 = (nextc s, nextd s, pdyn s, fdyn s1, longest s, stk s, env s, cur s) -> dyns s1 d = Some D ->
  (forall e, e <> d -> match dyns s e with Some D => exists D', dyns s1 e = Some D' /\ dsim D D' | None => dyns s1 e = None end) ->
  (forall e, In e LD' <-> In e LD /\ e <> d) -> NoDup LD' -> dlist (dyns s1) (fdyn s1) LD' ->
  exists s2 L', clean s1 d = Ret s2 /\ R pd s2 L' LD' a na nc /\ rest1 s2 = rest1 s1 /\ (forall e, e <> d -> dyns s2 e = dyns s1 e) /\ (forall x c, cls s x = Some c -> c_dyn c <> d -> cls s2 x = Some c).
Proof.
  intros H Hcur Hd Id Hm Nref C1 R1 Hd1 Ho HLD Hnd Hld. pose proof H as [Rdok Rcnt Rown Rald Rld Rnd Rin Rout Rpd Rinj Renv Rfr Raenv Rcur Rdb Rcount].
  pose proof (Rdok d D Hd) as K. unfold rest1 in R1. injection R1 as Rn1 Rn2 Rn3 Rn4 Rn5 Rn6 Rn7.
  assert (NI : ~ In d LD') by (rewrite HLD; tauto).
  assert (Hlt : forall x, In x (L d) -> (x < nextc s)%nat) by (intros x; exact (cls_lt pd s L LD a na nc d D x H Hd)).
  assert (HLD' : forall e, e <> d -> (In e LD' <-> In e LD)) by (intros e N; rewrite HLD; tauto).
  assert (NotInL : forall x c, cls s x = Some c -> c_dyn c <> d -> ~ In x (L d)). { intros x c Hx N Ix. destruct (k_cl _ _ _ _ _ K x Ix) as [c1 [A [B _]]]. congruence. }
  unfold clean, getd at 1. rewrite Hd1. cbn [bind]. destruct (d_erased D) as [b m] eqn:Eer. cbn in Hm. subst m.
  destruct (Rin d D Id Hd) as [[B [Det1 Det2]]|Ex]; rewrite Eer in *; cbn [e_base] in *.
  - (* the whole predicate *)
    subst b. unfold geth, getd. rewrite Hd1. cbn [bind]. pose proof (k_ch _ _ _ _ _ K Seq) as HS. unfold chk in HS. destruct (d_hd D Seq) as [h|] eqn:Hh; [|now elim (k_seq _ _ _ _ _ K)]. cbn [sub] in HS. destruct HS as [[HS1 [_ HS2]] _]. cbn [bind]. rewrite HS1.
    pose proof (srt_nodup _ _ (k_srt _ _ _ _ _ K)) as ND.
    destruct (free_all_ok (L d) (S (nextc s1)) s1 None) as [s2 [E2 [R2 [_ [Dy2 [F2 C2]]]]]]; [rewrite C1; exact HS2|exact ND|rewrite Rn1; pose proof (nodup_len _ _ ND Hlt); lia|].
    rewrite E2. cbn [bind]. unfold rest1 in R2. injection R2 as Q1 Q2 Q3 Q4 Q5 Q6 Q7 Q8.
    set (s3 := with_dyns s2 (upd (dyns s2) d None)). exists s3, (upd L d []). split; [reflexivity|]. assert (D3 : dyns s3 d = None) by (cbn; apply upd_eq). assert (D3' : forall e, e <> d -> dyns s3 e = dyns s1 e) by (intros e N; cbn; rewrite upd_neq by auto; congruence).
    split; [|split; [unfold rest1; cbn; congruence|split; [exact D3'|]]].
    + apply (R_step pd s s3 L LD LD' a a na nc na nc d D [] (upd L d [])); auto; try reflexivity; try lia.
      * cbn. congruence.
      * cbn. lia.
      * intros e N. rewrite D3' by auto. now apply Ho.
      * destruct Hld as [X Y]. split; [cbn; congruence|]. apply (dseg_ext (dyns s1)); [|exact Y]. intros e De Ie He. rewrite D3'; [eauto|]. intros ->. contradiction.
      * intros y Hy _. cbn. rewrite C2 by auto. now rewrite C1.
      * intros y [].
      * intros y c [Hy|[]] Hc. cbn in Hc. rewrite F2 in Hc by auto. discriminate.
      * rewrite D3. discriminate.
      * intros X. contradiction.
      * intros p X. now elim (Det1 p).
      * cbn. congruence.
    + intros x c Hx N. cbn. rewrite C2; [now rewrite C1|]. eauto.
  - (* the erased clauses *)
    destruct Ex as [er [Ne [Ech [NDe Mem]]]]. assert (Hb : exists x, b = ECl x). { destruct er as [|x er]; [now elim Ne|]. destruct Ech as [Ech _]. injection Ech as ->. eauto. } destruct Hb as [x0 ->].
    destruct (free_erased_ok er (S (nextc s1)) s1 d D (L d) (EP (ECl x0) false)) as [s2 [D2 [l' [E2 [R2 [_ [Dy2 [DR2 [K2 [M2 [F2 [C2 C2']]]]]]]]]]]]; auto.
    { rewrite C1. apply dok_weak, K. } { now rewrite C1. } { intros x Hx. now apply Mem. } { rewrite Rn1. enough (length er <= nextc s)%nat by lia. apply nodup_len; [exact NDe|]. intros x Hx. apply Hlt. now apply Mem. }
    rewrite E2. cbn [bind]. unfold getd. rewrite Dy2, upd_eq. cbn [bind]. unfold geth, getd. cbn [dyns putd with_dyns]. rewrite upd_eq. cbn [bind]. cbn [d_hd set_dnext set_erased].
    assert (HS : exists h, d_hd D2 Seq = Some h /\ h_first h = nxt l' None). { pose proof (k_ch _ _ _ _ _ K2 Seq) as HS. unfold chk in HS. destruct (d_hd D2 Seq) as [h|] eqn:Hh; [|now elim (k_seq _ _ _ _ _ K2)]. exists h. split; [reflexivity|]. apply HS. }
    destruct HS as [h [Hh Hfirst]]. rewrite Hh. cbn [bind]. rewrite Hfirst.
    unfold rest1 in R2. injection R2 as Q1 Q2 Q3 Q4 Q5 Q6 Q7 Q8. unfold drest in DR2. injection DR2 as V1 V2 V3 V4 V5.
    assert (Sm : forall x, In x l' -> same1 (cls s) (cls s2) x). { intros x Hx. apply M2 in Hx. destruct Hx as [Hx Nx]. destruct (k_cl _ _ _ _ _ K x Hx) as [c [A _]]. pose proof A as A'. rewrite <- C1 in A'. destruct (C2' x c Nx A') as [c' [X [Y [Z _]]]]. exists c, c'. auto. }
    assert (Lv : forall x, In x l' -> live (cls s2) x = true). { intros x Hx. rewrite (same1_live (cls s) (cls s2)) by auto. apply M2 in Hx. destruct Hx as [Hx Nx]. destruct (live (cls s) x) eqn:E; [reflexivity|]. elim Nx. now apply Mem. }
    assert (Fin : forall D3 s3, cls s3 = cls s2 -> rest1 s3 = rest1 s1 -> dyns s3 d = Some D3 -> (forall e, e <> d -> dyns s3 e = dyns s1 e) -> dok scan_gc (cls s2) d D3 l' -> - 1 - na <= count_a D3 <= -1 -> 0 <= count_z D3 <= na -> curr_stamp D3 = curr_stamp D -> d_erased D3 = e_null ->
       exists s4 L', Ret s3 = Ret s4 /\ R pd s4 L' LD' a na nc /\ rest1 s4 = rest1 s1 /\ (forall e, e <> d -> dyns s4 e = dyns s1 e) /\ (forall x c, cls s x = Some c -> c_dyn c <> d -> cls s4 x = Some c)).
    { intros D3 s3 Cs3 R3 Hd3 Hd3' K3 Ca Cz Cu Cer. exists s3, (upd L d l'). split; [reflexivity|]. split; [|split; [exact R3|split; [exact Hd3'|]]].
      2:{ intros x c Hx N. rewrite Cs3, C2; [now rewrite C1|]. eauto. }
      unfold rest1 in R3. injection R3 as T1 T2 T3 T4 T5 T6 T7 T8.
      apply (R_step pd s s3 L LD LD' a a na nc na nc d D l' (upd L d l')); auto; try reflexivity; try lia.
      - congruence.
      - intros e N. rewrite Hd3' by auto. now apply Ho.
      - destruct Hld as [X Y]. split; [congruence|]. apply (dseg_ext (dyns s1)); [|exact Y]. intros e De Ie He. rewrite Hd3'; [eauto|]. intros ->. contradiction.
      - intros y Hy _. rewrite Cs3, C2 by auto. now rewrite C1.
      - intros y Hy. left. now apply M2.
      - intros y c Hy Hc. rewrite Cs3 in Hc. assert (Hy' : In y l'). { destruct Hy as [Hy|Hy]; [|exact Hy]. apply M2. split; [exact Hy|]. intros X. rewrite F2 in Hc by auto. discriminate. }
        split; [rewrite T1, Rn1; apply Hlt; now apply M2|]. split; [|split; [rewrite Hd3; discriminate|exact Hy']]. destruct (k_cl _ _ _ _ _ K3 y Hy') as [c1 [A [B _]]]. congruence.
      - intros D' E. rewrite Hd3 in E. injection E as <-. rewrite Cs3. split; [apply dok_strong; [exact Lv|exact K3]|]. split; [pose proof (Rcnt d D Hd); lia|]. split; [intros X; contradiction|]. intros _. left. split; [exact Cer|exact Lv].
      - intros X. contradiction.
      - intros p Hp. split; [rewrite Hd3; discriminate|]. rewrite Rdb, Hp. cbn. rewrite Cs3. symmetry. apply filter_live_eq; [apply K|apply K2| |exact Sm]. intros x. rewrite M2. split; intros [X Y]; (split; [exact X|]).
        + destruct (live (cls s) x) eqn:E; [reflexivity|]. elim Y. now apply Mem.
        + intros Z. apply Mem in Z. destruct Z. congruence.
      - congruence. }
    pose proof (Rcnt d D Hd) as Cn.
    destruct l' as [|y l']; cbn [nxt].
    + apply (Fin (set_counts (no_tables (set_dnext (set_erased D2 e_null) None)) (-1) 0)); auto.
      * unfold rest1. cbn. congruence.
      * cbn. apply upd_eq.
      * intros e N. cbn. rewrite !upd_neq by auto. rewrite Dy2. now rewrite upd_neq.
      * constructor; [intros ? []|constructor|cbn; rewrite Hh; discriminate|]. intros k. pose proof (k_ch _ _ _ _ _ K2 k) as X. unfold chk in *. cbn [d_hd set_counts no_tables set_dnext set_erased]. destruct (in_htbl k) eqn:Ek; [split; [reflexivity|now destruct k]|]. exact X.
      * cbn [count_a count_z set_counts set_dnext set_erased no_tables]. lia.
      * cbn [count_a count_z set_counts set_dnext set_erased no_tables]. lia.
    + apply (Fin (set_dnext (set_erased D2 e_null) None)); auto.
      * unfold rest1. cbn. congruence.
      * cbn. apply upd_eq.
      * intros e N. cbn. rewrite !upd_neq by auto. rewrite Dy2. now rewrite upd_neq.
      * apply (dok_ext scan_gc (cls s2) _ d D2 _); auto using scan_gc_ext; cbn; lia.
      * cbn [count_a count_z set_counts set_dnext set_erased no_tables]. lia.
      * cbn [count_a count_z set_counts set_dnext set_erased no_tables]. lia.
Qed.
Definition rest2 (s : st) := (nextc s, nextd s, pdyn s, longest s, stk s, env s, cur s).
Lemma gc_loop_ok pd a na nc : forall todo fuel s L dn, R pd s L (dn ++ todo) a na nc -> mk s (dn ++ todo) todo -> cur s = None -> (length todo < fuel)%nat ->
  exists s' L' LD', gc_loop fuel s (lst None dn) (nxt todo None) = Ret s' /\ R pd s' L' LD' a na nc /\ mk s' LD' [] /\ rest2 s' = rest2 s.
Proof.
  induction todo as [|d todo IH]; intros fuel s L dn H Mk Hcur Hf; (destruct fuel as [|fuel]; [cbn in Hf; lia|]).
  - cbn. exists s, L, (dn ++ []). auto.
  - cbn [nxt gc_loop]. destruct (r_ld _ _ _ _ _ _ _ H) as [Hfd Hds]. apply dseg_app in Hds. destruct Hds as [Hds1 Hds2]. destruct Hds2 as [[D [Hd Hnx]] Hds3]. cbn [nxt] in Hds1.
    pose proof (r_nd _ _ _ _ _ _ _ H) as ND. unfold getd at 1. rewrite Hd. cbn [bind].
    assert (Ndt : ~ In d (dn ++ todo)) by (apply NoDup_remove_2 in ND; exact ND).
    assert (NDdt : NoDup (dn ++ todo)) by (apply NoDup_remove_1 in ND; exact ND).
    assert (Id : In d (dn ++ d :: todo)) by (apply in_or_app; right; now left).
    destruct (e_mark (d_erased D)) eqn:Em.
    + rewrite Hnx. change (set_erased D _) with (remark D false). pose proof (remark_ok pd s L _ a na nc d D false H Hcur Hd (fun _ => Id)) as H1. set (s1 := putd s d (remark D false)) in *.
      destruct (IH fuel s1 L (dn ++ [d])) as [s' [L' [LD' [A [B [C E]]]]]]; auto.
      * rewrite <- app_assoc. exact H1.
      * rewrite <- app_assoc. cbn [app]. intros e De Ie He. destruct (Nat.eq_dec e d) as [->|N].
        -- cbn in He. rewrite upd_eq in He. injection He as <-. split; [reflexivity|]. intros X. elim Ndt. apply in_or_app. now right.
        -- cbn in He. rewrite upd_neq in He by auto. destruct (Mk e De Ie He) as [M1 M2]. split; [intros X; apply M1; intros [Y|Y]; [congruence|contradiction]|]. intros X Y. exact (M2 (or_intror X) Y).
      * cbn in Hf. lia.
      * rewrite lst_snoc in A. exists s', L', LD'. split; [exact A|]. split; [exact B|]. split; [exact C|]. rewrite E. reflexivity.
    + destruct (Mk d D Id Hd) as [_ Nref]. specialize (Nref (or_introl eq_refl) Em). rewrite Hnx.
      assert (P : exists s1, set_last s (lst None dn) (nxt todo None) = Ret s1 /\ cls s1 = cls s /\ rest1 s1 = (nextc s, nextd s, pdyn s, fdyn s1, longest s, stk s, env s, cur s) /\ dyns s1 d = Some D /\
         (forall e, e <> d -> match dyns s e with Some D => exists D', dyns s1 e = Some D' /\ dsim D D' | None => dyns s1 e = None end) /\ dlist (dyns s1) (fdyn s1) (dn ++ todo)).
      { destruct dn as [|z dn _] using rev_ind.
        - cbn. exists (with_fdyn s (nxt todo None)). split; [reflexivity|]. split; [reflexivity|]. split; [reflexivity|]. split; [exact Hd|]. split; [|split; [reflexivity|exact Hds3]]. intros e N. cbn. destruct (dyns s e); [|reflexivity]. eexists. split; [reflexivity|apply dsim_refl].
        - rewrite lst_snoc. cbn [set_last]. apply dseg_app in Hds1. cbn [nxt] in Hds1. destruct Hds1 as [Hz1 [[Dz [Hz Hzn]] _]]. unfold getd. rewrite Hz. cbn [bind].
          assert (Nz : z <> d). { intros ->. apply Ndt. rewrite <- app_assoc. apply in_or_app. right. now left. }
          eexists. split; [reflexivity|]. split; [reflexivity|]. split; [reflexivity|]. split; [cbn; rewrite upd_neq by auto; exact Hd|]. split.
          + intros e N. cbn. destruct (Nat.eq_dec e z) as [->|N2]; [rewrite Hz, upd_eq; eexists; split; [reflexivity|repeat split]|]. rewrite upd_neq by auto. destruct (dyns s e); [|reflexivity]. eexists. split; [reflexivity|apply dsim_refl].
          + split; [cbn; rewrite Hfd; now rewrite !nxt_app|]. rewrite <- app_assoc in NDdt. cbn in NDdt. pose proof (NoDup_remove_2 _ _ _ NDdt) as Nz'. apply dseg_app. split.
            * apply dseg_app. cbn [nxt]. split; [|split; [|exact I]].
              -- apply (dseg_ext (dyns s)); [|exact Hz1]. intros e De Ie He. cbn. rewrite upd_neq; [eauto|]. intros ->. apply Nz', in_or_app. now left.
              -- cbn. rewrite upd_eq. eexists. split; reflexivity.
            * apply (dseg_ext (dyns s)); [|exact Hds3]. intros e De Ie He. cbn. rewrite upd_neq; [eauto|]. intros ->. apply Nz', in_or_app. now right. }
      destruct P as [s1 [E1 [C1 [R1 [Hd1 [Ho Hld]]]]]]. rewrite E1. cbn [bind].
      destruct (clean_step pd s s1 L _ (dn ++ todo) a na nc d D H Hcur Hd Id Em Nref C1 R1 Hd1 Ho) as [s2 [L2 [E2 [H2 [R2 [Dy2 Cl2]]]]]]; auto.
      { intros e. rewrite !in_app_iff. cbn. split; [|intuition congruence]. intros X. split; [tauto|]. intros ->. apply Ndt, in_app_iff, X. }
      rewrite E2. cbn [bind]. unfold rest1 in R1, R2. injection R1 as Q1 Q2 Q3 Q4 Q5 Q6 Q7. injection R2 as T1 T2 T3 T4 T5 T6 T7 T8.
      assert (Rf : forall e, refs s2 e -> refs s e).
      { intros e [[k [sc [ev [A B]]]]|[x [c [A [B C]]]]]; [left; exists k, sc, ev; split; [congruence|exact B]|]. right. rewrite T7, T6, Q6, Q5 in A. pose proof (r_env _ _ _ _ _ _ _ H x A) as X. destruct (cls s x) as [c0|] eqn:Hx; [|now elim X].
        exists x, c0. split; [exact A|]. split; [exact Hx|]. assert (c_dyn c0 <> d). { intros E. apply Nref. right. exists x, c0. auto. } rewrite (Cl2 x c0 Hx H0) in B. congruence. }
      destruct (IH fuel s2 L2 dn) as [s' [L' [LD' [A [B [C E]]]]]]; auto.
      * intros e De Ie He. assert (e <> d) by (intros ->; contradiction). rewrite Dy2 in He by auto. specialize (Ho e H0). destruct (dyns s e) as [D0|] eqn:HD0; [|congruence]. destruct Ho as [D1 [X [_ [_ [_ [_ Y]]]]]]. rewrite X in He. injection He as <-. rewrite Y.
        destruct (Mk e D0) as [M1 M2]; [apply in_app_iff in Ie; apply in_app_iff; cbn; tauto|exact HD0|]. split; [intros Z; apply M1; intros [V|V]; [congruence|contradiction]|]. intros Z V W. exact (M2 (or_intror Z) V (Rf e W)).
      * congruence.
      * cbn in Hf. lia.
      * exists s', L', LD'. split; [exact A|]. split; [exact B|]. split; [exact C|]. rewrite E. unfold rest2. congruence.
Qed.
Definition rest3 (s : st) := (nextc s, nextd s, pdyn s, stk s, env s, cur s).
Lemma R_longest pd s L LD a na nc n : R pd s L LD a na nc -> R pd (with_longest s n) L LD a na nc.
Proof. intros []. constructor; assumption. Qed.
Lemma gc_ok MC MS pd s L LD a na nc : R pd s L LD a na nc -> mk s LD [] -> cur s = None ->
  exists s' L' LD', GC_Clause MC MS s = Ret s' /\ R pd s' L' LD' a na nc /\ mk s' LD' [] /\ rest3 s' = rest3 s.
Proof.
  intros H Mk Hcur. unfold GC_Clause. destruct ((nb_erased s <? MC) && (longest s <? MS)); [exists s, L, LD; auto|].
  destruct (mark_scans_ok pd (stk s) s L LD a na nc H Hcur (fun f Hf => Hf)) as [s1 [E1 [H1 [M1 K1]]]]. rewrite E1. cbn [bind].
  pose proof M1 as [C1 [R1 Dm1]]. unfold rest in R1. injection R1 as X1 X2 X3 X4 X5 X6 X7 X8 X9.
  destruct (mark_envs_ok pd (env s1 ++ flat_map frame_env (stk s1)) s1 L LD a na nc H1) as [s2 [E2 [H2 [M2 K2]]]]; [congruence|intros x Hx; exact (r_env _ _ _ _ _ _ _ H1 x Hx)|]. rewrite E2. cbn [bind].
  pose proof M2 as [C2 [R2 Dm2]]. unfold rest in R2. injection R2 as Y1 Y2 Y3 Y4 Y5 Y6 Y7 Y8 Y9.
  destruct (r_ld _ _ _ _ _ _ _ H2) as [Hfd Hds]. rewrite Hfd.
  destruct (gc_loop_ok pd a na nc LD (S (nextd s2)) s2 L []) as [s3 [L3 [LD3 [E3 [H3 [K3 R3]]]]]]; auto.
  - intros d D Id Hd. cbn in Id. split; [intros X; contradiction|]. intros _ Em Rf. cbn. destruct Rf as [[k [sc [e [A B]]]]|[x [c [A [B C]]]]].
    + assert (Mk2 : marked s2 d). { eapply marked_mono; [exact M2|]. rewrite <- B. apply (K1 k sc e); [congruence|]. rewrite B. exact Id. } rewrite (Mk2 D Hd) in Em. discriminate.
    + assert (Mk2 : marked s2 d). { rewrite <- C. apply (K2 x c); [congruence|congruence]. } rewrite (Mk2 D Hd) in Em. discriminate.
  - congruence.
  - enough (length LD <= nextd s2)%nat by lia. apply nodup_len; [exact (r_nd _ _ _ _ _ _ _ H2)|]. intros d Hd. destruct (dseg_in _ _ _ _ Hds Hd) as [D HD]. exact (r_ald _ _ _ _ _ _ _ H2 d D HD).
  - cbn [lst] in E3. rewrite E3. cbn [bind]. exists (with_longest s3 0), L3, LD3. split; [reflexivity|]. split; [now apply R_longest|]. split; [exact K3|]. unfold rest2 in R3. injection R3 as Z1 Z2 Z3 Z4 Z5 Z6 Z7. unfold rest3. cbn. congruence.
Qed.
