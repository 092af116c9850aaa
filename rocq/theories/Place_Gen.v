(** C61: the code of the terms passes the check. *)
Require Import List Bool Arith Lia Permutation.
Require Import Verif.RegAlloc_Model Verif.RegAlloc_Spec Verif.RegAlloc_Graph Verif.Clause_Model Verif.Clause_Exec Verif.Clause_Shape Verif.Place_Spec Verif.Place_Check.
Import ListNotations.

Definition pl (i : vinfo) : place := match i with in_heap => Heap | not_in_cur_env => Outer | unsafe => Cur end.
(** the new registers stand for terms which are no variables *)
Definition is_var (t : tm) : bool := match t with Tv _ => true | _ => false end.
Lemma flat_nonvar : forall fl hb t s fa ax s', flat fl hb t s = (fa, ax, s') -> forall p, In p ax -> is_var (snd p) = false.
Proof.
  intros fl hb. induction t as [n|b|f l IH] using tm_size_ind; intros s fa ax s' E; [cbn in E; injection E as <- <- <-; intros p []|cbn in E; injection E as <- <- <-; intros p []|].
  change (flat fl hb (Tf 0 l) s = (fa, ax, s')) in E. revert s fa ax s' E. induction l as [|a l IHl]; intros s fa ax s' E.
  - cbn in E. injection E as <- <- <-. intros p [].
  - assert (IHl' : forall s fa ax s', flat fl hb (Tf 0 l) s = (fa, ax, s') -> forall p, In p ax -> is_var (snd p) = false) by (apply IHl; intros t Ht; apply IH; right; exact Ht). clear IHl.
    assert (AUX : is_var a = false -> (let (x, s) := new_aux hb s in let '(fa, ax, s) := flat fl hb (Tf 0 l) s in (Fcons (FX x a) fa, (x, a) :: ax, s)) = (fa, ax, s') -> forall p, In p ax -> is_var (snd p) = false).
    { intros NV. destruct (new_aux hb s) as (x, s1) eqn:EN. destruct (flat fl hb (Tf 0 l) s1) as ((fa1, ax1), s2) eqn:E1. intros Q. injection Q as <- <- <-. intros p [<-|Hp]; [exact NV|]. apply (IHl' _ _ _ _ E1 p Hp). }
    destruct a as [n|b|f1 l1].
    + change ((let '(fa, ax, s) := flat fl hb (Tf 0 l) s in (Fcons (FV n) fa, ax, s)) = (fa, ax, s')) in E. destruct (flat fl hb (Tf 0 l) s) as ((fa1, ax1), s2) eqn:E1. injection E as <- <- <-. apply (IHl' _ _ _ _ E1).
    + change ((if simple_const b then let '(fa, ax, s) := flat fl hb (Tf 0 l) s in (Fcons (FC b) fa, ax, s) else (let (x, s) := new_aux hb s in let '(fa, ax, s) := flat fl hb (Tf 0 l) s in (Fcons (FX x (Tc b)) fa, (x, Tc b) :: ax, s))) = (fa, ax, s')) in E.
      destruct (simple_const b); [|apply AUX; auto]. destruct (flat fl hb (Tf 0 l) s) as ((fa1, ax1), s2) eqn:E1. injection E as <- <- <-. apply (IHl' _ _ _ _ E1).
    + destruct l as [|a2 l].
      * change ((if opt_last fl && negb (is_mt f1 l1) then let '(fa, ax, s) := flat fl hb (Tf f1 l1) s in (Flast f1 (length l1) fa, ax, s) else (let (x, s) := new_aux hb s in let '(fa, ax, s) := flat fl hb (Tf 0 []) s in (Fcons (FX x (Tf f1 l1)) fa, (x, Tf f1 l1) :: ax, s))) = (fa, ax, s')) in E.
        destruct (opt_last fl && negb (is_mt f1 l1)); [|apply AUX; auto]. destruct (flat fl hb (Tf f1 l1) s) as ((fa1, ax1), s2) eqn:E1. injection E as <- <- <-. apply (IH (Tf f1 l1) (or_introl eq_refl) _ _ _ _ E1).
      * change ((let (x, s) := new_aux hb s in let '(fa, ax, s) := flat fl hb (Tf 0 (a2 :: l)) s in (Fcons (FX x (Tf f1 l1)) fa, (x, Tf f1 l1) :: ax, s)) = (fa, ax, s')) in E. apply AUX; auto.
Qed.
Lemma Flat_meta : forall hb l s fa ax s', Flat hb l s fa ax s' -> forallb no_meta_var l = true -> forall p, In p ax -> no_meta_var (snd p) = true.
Proof.
  induction 1 as [s|n l s fa ax s' H IH|b l s fa ax s' H IH|a l s x s1 fa ax s' E H IH|f l s fa ax s' H IH]; intros Q p Hp; cbn in Q; auto.
  - apply andb_true_iff in Q. destruct Q as (Q1 & Q2). destruct Hp as [<-|Hp]; [exact Q1|auto].
  - rewrite andb_true_r in Q. apply andb_true_iff in Q. apply IH; [apply Q|exact Hp].
Qed.

Section Gen.
Variable fl : flags.
Variable kd : nat -> kind.
Variable N0 nby : nat.
Variable B BY : nat -> place.
Variable ev : bool.
Variable ab : place.
Hypothesis HY : forall n y, kd n = KY y -> ev = true /\ y < nby.
Notation rb := (rb B ab).
Notation ti := (ti nby B BY ev ab).
Notation wfs := (wfs N0).
Notation shape := (shape kd N0).

(** * Code without calls *)
Fixpoint ts (D : nat -> Prop) (l : list inst) : Prop :=
  match l with
  | [] => True
  | i :: l => lost_by i = false /\ ev_after ev i = ev /\ ti i /\ (forall y, In y (y_reads i) -> D y) /\ ts (y_after D i) l
  end.
Definition after (D : nat -> Prop) (l : list inst) : nat -> Prop := fold_left y_after l D.
Lemma ts_app : forall l1 l2 D, ts D l1 -> ts (after D l1) l2 -> ts D (l1 ++ l2).
Proof. induction l1 as [|i l1 IH]; intros l2 D H1 H2; [exact H2|]. cbn in *. destruct H1 as (Q1 & Q2 & Q3 & Q4 & Q5). split; [exact Q1|]. split; [exact Q2|]. split; [exact Q3|]. split; [exact Q4|]. apply IH; assumption. Qed.
Lemma after_app : forall l1 l2 D, after D (l1 ++ l2) = after (after D l1) l2.
Proof. intros. unfold after. apply fold_left_app. Qed.
Lemma ts_tc : forall l1 l2 D, ts D l1 -> tc nby B BY ev ab (after D l1) l2 -> tc nby B BY ev ab D (l1 ++ l2).
Proof.
  induction l1 as [|i l1 IH]; intros l2 D H1 H2; [exact H2|]. cbn [ts app] in *. destruct H1 as (Q1 & Q2 & Q3 & Q4 & Q5). cbn [tc]. exists ab. split; [apply ple_refl|]. split; [exact Q3|]. split; [exact Q4|]. exists ab. split; [intros _; apply ple_refl|]. rewrite Q2. apply IH; assumption.
Qed.

(** * The bounds and the state of the generator *)
Definition ext (s s' : st) : Prop := nxt s <= nxt s' /\ forall n, known s n -> inf s' n = inf s n.
Definition bnd (s : st) : Prop := forall n i, n < N0 -> inf s n = Some i -> match kd n with KY y => BY y = pl i | _ => B n = pl i end.
Definition kxok (s : st) : Prop := forall n, n < N0 -> (forall y, kd n <> KY y) -> inf s n <> Some unsafe.
Definition ycov (D : nat -> Prop) (s : st) : Prop := forall n y, n < N0 -> known s n -> kd n = KY y -> D y.
Definition auxh (s s' : st) : Prop := forall x, nxt s <= x < nxt s' -> B x = Heap.
Record Good (s s' : st) (c : list inst) : Prop := Gd {
  g_ext : ext s s';
  g_wfs : wfs s';
  g_kx : auxh s s' -> kxok s -> kxok s';
  g_ts : forall D, bnd s' -> auxh s s' -> ycov D s -> kxok s -> ts D c /\ ycov (after D c) s' }.
Lemma ext_trans : forall a b c, ext a b -> ext b c -> ext a c.
Proof. intros a b c (E1 & E2) (E3 & E4). split; [lia|]. intros n K. rewrite E4; [auto|]. unfold known. rewrite E2; auto. Qed.
Lemma ext_refl : forall s, ext s s.
Proof. intros s. split; auto. Qed.
Lemma bnd_ext : forall s s', ext s s' -> bnd s' -> bnd s.
Proof. intros s s' (_ & E) H n i Hn Ei. apply H; [exact Hn|]. rewrite E; [exact Ei|]. unfold known. congruence. Qed.
Lemma Good_app : forall s s1 s2 c1 c2, Good s s1 c1 -> Good s1 s2 c2 -> Good s s2 (c1 ++ c2).
Proof.
  intros s s1 s2 c1 c2 [E1 W1 K1 T1] [E2 W2 K2 T2]. assert (A1 : auxh s s2 -> auxh s s1) by (intros HA x Hx; apply HA; destruct E2; lia). assert (A2 : auxh s s2 -> auxh s1 s2) by (intros HA x Hx; apply HA; destruct E1; lia). constructor; auto.
  - apply (ext_trans _ _ _ E1 E2).
  - intros D HB HA HD HK. destruct (T1 D) as (Q1 & Q2); auto; [apply (bnd_ext _ _ E2 HB)|]. destruct (T2 (after D c1)) as (Q3 & Q4); auto.
    split; [apply ts_app; assumption|rewrite after_app; exact Q4].
Qed.
Lemma Good_silent : forall s s', nxt s <= nxt s' -> (forall n, n < nxt s -> inf s' n = inf s n) -> wfs s -> wfs s' -> Good s s' [].
Proof.
  intros s s' L E (W1 & W2) W'. constructor; [split; [exact L|]|exact W'| |].
  - intros n K. apply E. destruct (le_lt_dec (nxt s) n) as [Q|Q]; [exfalso; apply K; apply W2; exact Q|exact Q].
  - intros _ K n Hn NY. rewrite E by lia. auto.
  - intros D _ _ HD _. split; [exact Logic.I|]. intros n y Hn K. apply HD; [exact Hn|]. unfold known in *. rewrite E in K by lia. exact K.
Qed.
(** instructions which do nothing with the variables *)
Lemma Good_same : forall s i, wfs s -> lost_by i = false -> ev_after ev i = ev -> y_reads i = [] -> y_writes i = [] -> (forall n, i <> other (i_allocate n)) -> ti i -> Good s s [i].
Proof.
  intros s i W Q1 Q2 Q3 Q4 Q5 Q6. constructor; auto; [apply ext_refl|]. intros D _ _ HD _. split.
  - cbn. rewrite Q3. split; [exact Q1|]. split; [exact Q2|]. split; [exact Q6|]. split; [intros y []|exact Logic.I].
  - intros n y Hn K Ey. cbn. assert (R : D y) by (apply (HD n); auto). unfold y_after. destruct i as [| | | | | | | | | | | | | | |k]; auto. destruct k; auto. exfalso. apply (Q5 _ eq_refl).
Qed.
Lemma kx_outer : forall s n i, bnd s -> kxok s -> n < N0 -> (forall y, kd n <> KY y) -> inf s n = Some i -> B n = pl i /\ ple (B n) Outer.
Proof.
  intros s n i HB HK Hn NY E. specialize (HB n i Hn E). specialize (HK n Hn NY). assert (Q : B n = pl i) by (destruct (kd n) eqn:Ek; auto; exfalso; apply (NY y); reflexivity). split; [exact Q|]. rewrite Q. destruct i; cbn; try exact Logic.I. congruence.
Qed.
Lemma kx_set : forall s n i, kxok s -> (i = unsafe -> exists y, kd n = KY y) -> kxok (set_inf s n i).
Proof. intros s n i H U m Hm NY. cbn. destruct (Nat.eqb_spec m n) as [->|]; [|auto]. intros E. injection E as ->. destruct (U eq_refl) as (y & Ey). apply (NY y Ey). Qed.
Lemma set_wfs : forall s n i, wfs s -> n < N0 -> wfs (set_inf s n i).
Proof. intros s n i (W1 & W2) L. split; [exact W1|]. intros m Hm. cbn in *. destruct (Nat.eqb_spec m n); [lia|auto]. Qed.
Lemma set_ext : forall s n i, inf s n = None -> ext s (set_inf s n i).
Proof. intros s n i E. split; [apply le_n|]. intros m K. cbn. destruct (Nat.eqb_spec m n) as [->|]; [exfalso; apply K; exact E|reflexivity]. Qed.
Lemma set_get : forall s n i, inf (set_inf s n i) n = Some i.
Proof. intros s n i. cbn. rewrite Nat.eqb_refl. reflexivity. Qed.
Lemma ycov_set : forall (D D' : nat -> Prop) s n i, ycov D s -> (forall y, D y -> D' y) -> (forall y, kd n = KY y -> D' y) -> ycov D' (set_inf s n i).
Proof. intros D D' s n i H E1 E2 m y Hm K Ey. apply known_set in K. destruct K as [K| ->]; [apply E1; apply (H m); auto|apply E2; exact Ey]. Qed.
Ltac tsone := split; [reflexivity|]; split; [reflexivity|].
Lemma ti_intro : forall i, ti1 B BY ab i -> ti_env nby ev i -> (forall y, In y (y_reads i ++ y_writes i) -> exists n, kd n = KY y) -> (forall x, In x (reads_of i) -> ple (rb x) Outer) -> ti i.
Proof. intros i Q1 Q2 Q3 Q4. split; [exact Q1|]. split; [exact Q2|]. split; [|auto]. intros y Hy. destruct (Q3 y Hy) as (n & E). apply (HY n y E). Qed.
Lemma unif_var_good : forall n x s c s', unif_var kd n x s = (c, s') -> wfs s -> n < N0 -> ple (rb x) Outer -> Good s s' c.
Proof.
  intros n x s c s' E W L HX. unfold unif_var in E. destruct (inf s n) as [i|] eqn:EI.
  - injection E as <- <-. constructor; auto; [apply ext_refl|]. intros D HB HA HD HK. assert (K : known s n) by (unfold known; congruence). destruct (kd n) as [| |y] eqn:EK.
    1, 2: destruct (kx_outer s n i HB HK L ltac:(congruence) EI) as (Q1 & Q2); split; [|intros m y Hm Km Ey; left; apply (HD m y Hm Km Ey)];
      cbn; tsone; split; [|split; [intros y []|exact Logic.I]]; apply ti_intro; [exact Logic.I|exact Logic.I|intros y []|intros z [<-|[<-|[]]]; [exact Q2|exact HX]].
    split; [|intros m z Hm Km Ez; left; apply (HD m z Hm Km Ez)]. cbn; tsone; split; [|split; [intros z [<-|[]]; apply (HD n y L K EK)|exact Logic.I]]. apply ti_intro; [exact Logic.I|exact Logic.I|intros z [<-|[]]; eauto|intros z [<-|[]]; exact HX].
  - destruct (kd n) as [| |y] eqn:EK; injection E as <- <-.
    + constructor; [apply set_ext; exact EI|apply set_wfs; assumption|intros _ HK; apply kx_set; [exact HK|discriminate]|]. intros D HB HA HD HK. specialize (HB n _ L (set_get s n _)). rewrite EK in HB. cbn in HB. split.
      * cbn. tsone. split; [|split; [intros y []|exact Logic.I]]. apply ti_intro; [cbn; rewrite HB; exact HX|exact Logic.I|intros y []|intros z [<-|[]]; exact HX].
      * apply (ycov_set D); [exact HD|intros y Hy; left; exact Hy|congruence].
    + apply Good_silent; auto.
    + constructor; [apply set_ext; exact EI|apply set_wfs; assumption|intros _ HK; apply kx_set; [exact HK|discriminate]|]. intros D HB HA HD HK. specialize (HB n _ L (set_get s n _)). rewrite EK in HB. cbn in HB. split.
      * cbn. tsone. split; [|split; [intros z []|exact Logic.I]]. apply ti_intro; [cbn; rewrite HB; exact HX|exact Logic.I|intros z [<-|[]]; eauto|intros z [<-|[]]; exact HX].
      * apply (ycov_set D); [exact HD|intros z Hz; left; exact Hz|]. intros z Ez. right. left. congruence.
Qed.
Definition lim (lp : bool) : place := if lp then Outer else Cur.
Lemma load_var_good : forall lp n x s c s', load_var kd lp n x s = (c, s') -> wfs s -> n < N0 -> ple (lim lp) (rb x) -> lp_ok kd lp s [n] -> Good s s' c.
Proof.
  intros lp n x s c s' E W L HX HP. assert (OX : forall p, ple p Outer -> ple p (rb x)) by (intros p Q; apply (ple_trans _ Outer); [exact Q|]; revert HX; destruct lp, (rb x); cbn; auto). unfold load_var in E. destruct (inf s n) as [i|] eqn:EI.
  - injection E as <- <-. constructor; auto; [apply ext_refl|]. intros D HB HA HD HK. assert (K : known s n) by (unfold known; congruence). destruct (kd n) as [| |y] eqn:EK.
    1, 2: destruct (kx_outer s n i HB HK L ltac:(congruence) EI) as (Q1 & Q2); split; [|intros m y Hm Km Ey; left; apply (HD m y Hm Km Ey)];
      cbn; tsone; split; [|split; [intros y []|exact Logic.I]]; apply ti_intro; [apply OX; exact Q2|exact Logic.I|intros y []|intros z [<-|[]]; exact Q2].
    specialize (HB n i L EI). rewrite EK in HB. destruct i; [| |destruct lp]; (split; [|intros m z Hm Km Ez; left; apply (HD m z Hm Km Ez)]); cbn; tsone; (split; [|split; [intros z [<-|[]]; apply (HD n y L K EK)|exact Logic.I]]);
      (apply ti_intro; [cbn; try rewrite HB; try (apply OX; exact Logic.I); exact HX|exact Logic.I|intros z [<-|[]]; eauto|intros z []]).
  - destruct (kd n) as [| |y] eqn:EK; injection E as <- <-.
    + constructor; [apply set_ext; exact EI|apply set_wfs; assumption|intros _ HK; apply kx_set; [exact HK|discriminate]|]. intros D HB HA HD HK. split.
      * cbn. tsone. split; [|split; [intros y []|exact Logic.I]]. apply ti_intro; [exact Logic.I|exact Logic.I|intros y []|intros z []].
      * apply (ycov_set D); [exact HD|intros y Hy; left; exact Hy|congruence].
    + apply Good_same; auto; try reflexivity; [discriminate|]. apply ti_intro; [exact Logic.I|exact Logic.I|intros y []|intros z []].
    + destruct lp; [exfalso; apply (HP eq_refl n y (or_introl eq_refl) EK); exact EI|].
      constructor; [apply set_ext; exact EI|apply set_wfs; assumption|intros _ HK; apply kx_set; [exact HK|eauto]|]. intros D HB HA HD HK. specialize (HB n _ L (set_get s n _)). rewrite EK in HB. cbn in HB. split.
      * cbn. tsone. split; [|split; [intros z []|exact Logic.I]]. apply ti_intro; [|exact Logic.I|intros z [<-|[]]; eauto|intros z []]. split; [exact HB|]. cbn in HX. destruct (rb x); [destruct HX|destruct HX|reflexivity].
      * apply (ycov_set D); [exact HD|intros z Hz; left; exact Hz|]. intros z Ez. right. left. congruence.
Qed.
Lemma sub_var_good : forall n s c s', sub_var n (kd n) s = (c, s') -> wfs s -> n < N0 -> Good s s' c.
Proof.
  intros n s c s' E W L. unfold sub_var in E. destruct (inf s n) as [i|] eqn:EI.
  - assert (K : known s n) by (unfold known; congruence). assert (ES : s' = s) by (destruct i; injection E; auto). subst s'. constructor; auto; [apply ext_refl|]. intros D HB HA HD HK. pose proof (HB n i L EI) as HB1. 
    assert (YC : forall i, (forall n, i <> other (i_allocate n)) -> ycov (after D [i]) s) by (intros i0 NA m y Hm Km Ey; cbn; specialize (HD m y Hm Km Ey); unfold y_after; destruct i0 as [| | | | | | | | | | | | | | |k]; auto; destruct k; auto; exfalso; apply (NA _ eq_refl)).
    destruct (kd n) as [| |y] eqn:EK.
    1, 2: destruct (kx_outer s n i HB HK L ltac:(congruence) EI) as (Q1 & Q2); destruct i; injection E as <-; (split; [|apply YC; discriminate]); cbn; tsone; (split; [|split; [intros y []|exact Logic.I]]); (apply ti_intro; [try exact Logic.I; exact HB1|exact Logic.I|intros y []|intros z [<-|[]]; exact Q2]).
    destruct i; injection E as <-; (split; [|apply YC; discriminate]); cbn; tsone; (split; [|split; [intros z [<-|[]]; apply (HD n y L K EK)|exact Logic.I]]); (apply ti_intro; [try exact Logic.I; exact HB1|exact Logic.I|intros z [<-|[]]; eauto|intros z []]).
  - injection E as <- <-. constructor; [apply set_ext; exact EI|apply set_wfs; assumption|intros _ HK; apply kx_set; [exact HK|discriminate]|]. intros D HB HA HD HK. destruct (kd n) as [| |y] eqn:EK.
    1, 2: split; [|apply (ycov_set D); [exact HD|intros y Hy; left; exact Hy|congruence]]; cbn; tsone; split; [|split; [intros y []|exact Logic.I]]; apply ti_intro; [exact Logic.I|exact Logic.I|intros y []|intros z []].
    split; [|apply (ycov_set D); [exact HD|intros z Hz; left; exact Hz|]; intros z Ez; right; left; congruence]. cbn. tsone. split; [|split; [intros z []|exact Logic.I]]. apply ti_intro; [exact Logic.I|exact Logic.I|intros z [<-|[]]; eauto|intros z []].
Qed.
Lemma sub_aux_good : forall hb x s c s', sub_var x KX s = (c, s') -> aux_ok N0 hb s x -> wfs s -> B x = Heap -> Good s s' c.
Proof.
  intros hb x s c s' E (L & EI) W HB. unfold sub_var in E. rewrite EI in E. destruct hb; injection E as <- <-.
  - change [unify_variable_x (T x)] with ([] ++ [unify_variable_x (T x)]). apply (Good_app _ (set_inf s x in_heap)).
    + constructor; [apply set_ext; exact EI| |intros _ HK m Hm NY; cbn; destruct (Nat.eqb_spec m x); [lia|auto]|].
      * destruct W as (W1 & W2). split; [exact W1|]. intros m Hm. cbn in *. destruct (Nat.eqb_spec m x); [lia|auto].
      * intros D _ _ HD _. split; [exact Logic.I|]. intros m y Hm K. apply HD; [exact Hm|]. apply known_set in K. destruct K as [K| ->]; [exact K|lia].
    + apply Good_same; try reflexivity; [|discriminate|apply ti_intro; [exact Logic.I|exact Logic.I|intros y []|intros z []]].
      destruct W as (W1 & W2). split; [exact W1|]. intros m Hm. cbn in *. destruct (Nat.eqb_spec m x); [lia|auto].
  - apply Good_same; auto; try reflexivity; [discriminate|]. apply ti_intro; [exact HB|exact Logic.I|intros y []|]. intros z [<-|[]]. cbn. rewrite HB. exact Logic.I.
Qed.
Lemma Good_nil : forall s, wfs s -> Good s s [].
Proof. intros s W. apply Good_silent; auto. Qed.
Lemma voids_good : forall v s, wfs s -> Good s s (voids v).
Proof. intros v s W. destruct v; [apply Good_nil; exact W|]. apply Good_same; auto; try reflexivity; [discriminate|]. apply ti_intro; [exact Logic.I|exact Logic.I|intros y []|intros z []]. Qed.
Lemma Good_one : forall s i s' c, Good s s' c -> wfs s -> Good s s [i] -> Good s s' (i :: c).
Proof. intros s i s' c G W G1. apply (Good_app _ _ _ [i] c G1 G). Qed.
Lemma shape_ext : forall X Vs s s' c, shape X Vs s s' c -> ext s s'.
Proof. intros X Vs s s' c Sh. split; [apply (sh_nxt _ _ _ _ _ _ _ Sh)|apply (sh_mono _ _ _ _ _ _ _ Sh)]. Qed.
Lemma aux_ok_ext : forall hb s s' x, ext s s' -> aux_ok N0 hb s x -> inf s' x = inf s x -> aux_ok N0 hb s' x.
Proof. intros hb s s' x (E & _) (L & EI) Q. split; [lia|]. rewrite Q. exact EI. Qed.
Lemma gen_sub_good : forall hb l v s c s', gen_sub kd v l s = (c, s') -> wfs s -> (forall n, In n (fvars l) -> n < N0) ->
  (forall x, In x (fx l) -> aux_ok N0 hb s x) -> NoDup (fx l) -> (forall x, In x (fx l) -> B x = Heap) -> Good s s' c.
Proof.
  intros hb. induction l as [|[n|b|x t] l IH|f n l IH]; intros v s c s' E W HN HX ND HH; cbn [gen_sub] in E; cbn [fvars fx] in *.
  - injection E as <- <-. apply voids_good. exact W.
  - destruct (is_void kd n) eqn:EV; [apply (IH _ _ _ _ E W); auto; intros m Hm; apply HN; right; exact Hm|].
    destruct (sub_var n (kd n) s) as (c1, s1) eqn:E1. destruct (gen_sub kd [] l s1) as (c2, s2) eqn:E2. injection E as <- <-.
    assert (L : n < N0) by (apply HN; left; reflexivity). assert (G1 := sub_var_good _ _ _ _ E1 W L). apply (Good_app _ s); [apply voids_good; exact W|]. apply (Good_app _ s1); [exact G1|].
    apply (IH _ _ _ _ E2); auto; [apply (g_wfs _ _ _ G1)|intros m Hm; apply HN; right; exact Hm|]. intros x Hx. apply (aux_ok_ext hb s); [apply (g_ext _ _ _ G1)|auto|]. unfold sub_var in E1. destruct (HX x Hx) as (Q & _). destruct (inf s n) as [[]|]; injection E1 as <- <-; auto. cbn. destruct (Nat.eqb_spec x n); [lia|reflexivity].
  - destruct (gen_sub kd [] l s) as (c2, s2) eqn:E2. injection E as <- <-. apply (Good_app _ s); [apply voids_good; exact W|]. apply Good_one; [apply (IH _ _ _ _ E2); auto|exact W|]. apply Good_same; auto; try reflexivity; [discriminate|]. apply ti_intro; [exact Logic.I|exact Logic.I|intros y []|intros z []].
  - destruct (sub_var x KX s) as (c1, s1) eqn:E1. destruct (gen_sub kd [] l s1) as (c2, s2) eqn:E2. injection E as <- <-. inversion ND as [|? ? N1 N2]; subst.
    assert (AX : aux_ok N0 hb s x) by (apply HX; left; reflexivity). assert (G1 := sub_aux_good hb _ _ _ _ E1 AX W (HH x (or_introl eq_refl))). apply (Good_app _ s); [apply voids_good; exact W|]. apply (Good_app _ s1); [exact G1|].
    apply (IH _ _ _ _ E2); auto; [apply (g_wfs _ _ _ G1)| |intros z Hz; apply HH; right; exact Hz]. intros z Hz. apply (aux_ok_ext hb s); [apply (g_ext _ _ _ G1)|apply HX; right; exact Hz|]. unfold sub_var in E1. destruct AX as (_ & EI). rewrite EI in E1. destruct hb; injection E1 as <- <-; auto. cbn. destruct (Nat.eqb_spec z x); [subst; contradiction|reflexivity].
  - destruct (gen_sub kd [] l s) as (c2, s2) eqn:E2. injection E as <- <-. apply (Good_app _ s); [apply voids_good; exact W|]. apply Good_one; [apply (IH _ _ _ _ E2); auto|exact W|]. apply Good_same; auto; try reflexivity; [discriminate|]. apply ti_intro; [exact Logic.I|exact Logic.I|intros y []|intros z []].
Qed.
Lemma gen_lst_good : forall (g : tm -> reg -> st -> option (list inst * st)) (Pre : st -> reg * tm -> Prop) l, (forall s s' p, ext s s' -> Pre s p -> Pre s' p) ->
  (forall p, In p l -> forall s c s', g (snd p) (fst p) s = Some (c, s') -> wfs s -> Pre s p -> Good s s' c) ->
  forall s c s', gen_lst g l s = Some (c, s') -> wfs s -> (forall p, In p l -> Pre s p) -> Good s s' c.
Proof.
  intros g Pre l HM. induction l as [|(x, t) l IH]; intros HG s c s' E W HP; cbn [gen_lst] in E.
  - injection E as <- <-. apply Good_nil. exact W.
  - destruct (g t x s) as [(c1, s1)|] eqn:E1; [|discriminate E]. destruct (gen_lst g l s1) as [(c2, s2)|] eqn:E2; [|discriminate E]. injection E as <- <-.
    assert (G1 := HG (x, t) (or_introl eq_refl) s c1 s1 E1 W (HP _ (or_introl eq_refl))). apply (Good_app _ s1); [exact G1|]. apply IH; auto; [intros p Hp; apply HG; right; exact Hp|apply (g_wfs _ _ _ G1)|]. intros p Hp. apply (HM s); [apply (g_ext _ _ _ G1)|apply HP; right; exact Hp].
Qed.
Lemma Good_bind : forall s s' c, ext s s' -> wfs s' -> (auxh s s' -> Good s s' c) -> Good s s' c.
Proof. intros s s' c E W H. constructor; auto; [intros HA; apply (g_kx _ _ _ (H HA) HA)|]. intros D HB HA. apply (g_ts _ _ _ (H HA) D HB HA). Qed.
(** ** The numbers of the new registers *)
Lemma sub_var_nxt : forall n k s, nxt (snd (sub_var n k s)) = nxt s.
Proof. intros n k s. unfold sub_var. destruct (inf s n) as [[]|]; reflexivity. Qed.
Lemma gen_sub_nxt : forall l v s c s', gen_sub kd v l s = (c, s') -> nxt s' = nxt s.
Proof.
  induction l as [|[n|b|x t] l IH|f n l IH]; intros v s c s' E; cbn [gen_sub] in E.
  - injection E as <- <-. reflexivity.
  - destruct (is_void kd n); [apply (IH _ _ _ _ E)|]. pose proof (sub_var_nxt n (kd n) s) as Q. destruct (sub_var n (kd n) s) as (c1, s1). destruct (gen_sub kd [] l s1) as (c2, s2) eqn:E2. injection E as <- <-. rewrite (IH _ _ _ _ E2). exact Q.
  - destruct (gen_sub kd [] l s) as (c2, s2) eqn:E2. injection E as <- <-. apply (IH _ _ _ _ E2).
  - pose proof (sub_var_nxt x KX s) as Q. destruct (sub_var x KX s) as (c1, s1). destruct (gen_sub kd [] l s1) as (c2, s2) eqn:E2. injection E as <- <-. rewrite (IH _ _ _ _ E2). exact Q.
  - destruct (gen_sub kd [] l s) as (c2, s2) eqn:E2. injection E as <- <-. apply (IH _ _ _ _ E2).
Qed.
Lemma gen_lst_nxt : forall (g : tm -> reg -> st -> option (list inst * st)), (forall t x s c s', g t x s = Some (c, s') -> nxt s <= nxt s') -> forall l s c s', gen_lst g l s = Some (c, s') -> nxt s <= nxt s'.
Proof.
  intros g HG. induction l as [|(x, t) l IH]; intros s c s' E; cbn [gen_lst] in E; [injection E as <- <-; apply le_n|].
  destruct (g t x s) as [(c1, s1)|] eqn:E1; [|discriminate E]. destruct (gen_lst g l s1) as [(c2, s2)|] eqn:E2; [|discriminate E]. injection E as <- <-. specialize (HG _ _ _ _ _ E1). specialize (IH _ _ _ E2). lia.
Qed.
Lemma flat_nxt : forall hb f l s fa ax s1, flat fl hb (Tf f l) s = (fa, ax, s1) -> nxt s <= nxt s1.
Proof. intros hb f l s fa ax s1 E. apply flat_Flat in E. destruct (Flat_shape _ _ _ _ _ _ E) as (_ & _ & _ & _ & Q & _). lia. Qed.
Lemma gen_unif_nxt : forall k t x s c s', gen_unif fl kd k t x s = Some (c, s') -> nxt s <= nxt s'.
Proof.
  induction k as [|k IH]; intros [n|b|f l] x s c s' E.
  1, 4: cbn in E; injection E as E; unfold unif_var in E; destruct (inf s n), (kd n); injection E as <- <-; apply le_n.
  1, 3: cbn in E; injection E as <- <-; apply le_n.
  1: discriminate E.
  cbn [gen_unif] in E. destruct (flat fl true (Tf f l) s) as ((fa, ax), s1) eqn:EF. apply flat_nxt in EF. destruct (gen_sub kd [] fa s1) as (c1, s2) eqn:E1. apply gen_sub_nxt in E1. destruct (gen_lst (gen_unif fl kd k) (auxs ax) s2) as [(c2, s3)|] eqn:E2; [|discriminate E]. injection E as <- <-. apply (gen_lst_nxt _ IH) in E2. lia.
Qed.
Lemma gen_load_nxt : forall lp k t x s c s', gen_load fl kd lp k t x s = Some (c, s') -> nxt s <= nxt s'.
Proof.
  intros lp. induction k as [|k IH]; intros [n|b|f l] x s c s' E.
  1, 4: cbn in E; injection E as E; unfold load_var in E; destruct (inf s n), (kd n); injection E as <- <-; apply le_n.
  1, 3: cbn in E; injection E as <- <-; apply le_n.
  1: discriminate E.
  rewrite gen_load_Tf in E. destruct (as_meta f l) as [(m, g)|].
  - cbn [new_reg] in E. destruct (gen_load fl kd lp k g (T (nxt s)) (St (S (nxt s)) (inf s))) as [(c1, s1)|] eqn:E1; [|discriminate E]. injection E as <- <-. apply IH in E1. cbn in E1. lia.
  - destruct (flat fl false (Tf f l) s) as ((fa, ax), s1) eqn:EF. apply flat_nxt in EF. destruct (gen_lst (gen_load fl kd lp k) (auxs ax) s1) as [(c1, s2)|] eqn:E1; [|discriminate E]. destruct (gen_sub kd [] fa s2) as (c2, s3) eqn:E2. apply gen_sub_nxt in E2. injection E as <- <-. apply (gen_lst_nxt _ IH) in E1. lia.
Qed.
(** ** gen_unif *)
Lemma flat_good : forall hb l s fa ax s1, Flat hb l s fa ax s1 -> wfs s -> Good s s1 [] /\ wfs s1 /\ (forall x, In x (fx fa) -> nxt s <= x < nxt s1 /\ aux_ok N0 hb s1 x) /\ NoDup (fx fa) /\ fx fa = map fst ax.
Proof.
  intros hb l s fa ax s1 F W. destruct (Flat_shape _ _ _ _ _ _ F) as (F1 & F2 & F3 & F4 & F5 & F6 & F7). destruct (Flat_inf N0 _ _ _ _ _ _ F W) as (W1 & I1 & I2). split; [apply Good_silent; auto; lia|]. split; [exact W1|]. rewrite F1. split; [|split; [rewrite F4; apply seq_NoDup|reflexivity]].
  intros x Hx. pose proof (I2 x Hx) as EI. rewrite F4 in Hx. apply in_seq in Hx. split; [lia|]. split; [destruct W; lia|exact EI].
Qed.
Lemma gen_unif_good : forall k t x s c s', gen_unif fl kd k t x s = Some (c, s') -> wfs s -> lvl N0 (vars t) -> tgt_ok N0 s x -> ple (rb x) Outer -> Good s s' c.
Proof.
  induction k as [|k IH]; intros t x s c s' E W HV HX HP; destruct t as [n|b|f l].
  1, 4: cbn in E; injection E as E; apply (unif_var_good _ _ _ _ _ E W); [apply HV; left; reflexivity|exact HP].
  1, 3: cbn in E; injection E as <- <-; apply Good_same; auto; try reflexivity; [discriminate|]; apply ti_intro; [exact Logic.I|exact Logic.I|intros y []|intros z [<-|[]]; exact HP].
  1: discriminate E.
  assert (Sh := gen_unif_shape fl kd N0 (S k) (Tf f l) x s c s' E W HV HX). assert (W' : wfs s') by (apply (shape_wfs _ _ _ _ _ _ _ Sh W); intros ? []). apply Good_bind; [apply (shape_ext _ _ _ _ _ Sh)|exact W'|]. intros HA.
  cbn [gen_unif] in E. destruct (flat fl true (Tf f l) s) as ((fa, ax), s1) eqn:EF. destruct (gen_sub kd [] fa s1) as (c1, s2) eqn:E1. destruct (gen_lst (gen_unif fl kd k) (auxs ax) s2) as [(c2, s3)|] eqn:E2; [|discriminate E]. injection E as <- <-.
  apply flat_Flat in EF. destruct (flat_good _ _ _ _ _ _ EF W) as (G0 & W1 & AX & ND & FX). destruct (Flat_shape _ _ _ _ _ _ EF) as (F1 & F2 & F3 & F4 & F5 & F6 & F7).
  assert (LV : forall n, In n (fvars fa) \/ In n (lvars (map snd ax)) -> n < N0) by (intros n Hn; apply HV; rewrite vars_Tf; apply (Permutation_in _ F6); apply in_app_iff; exact Hn).
  apply Good_one; [|exact W|apply Good_same; auto; try reflexivity; [discriminate|]; apply ti_intro; [exact Logic.I|exact Logic.I|intros y []|intros z [<-|[]]; exact HP]].
  apply (Good_app _ s1 _ [] (c1 ++ c2) G0). assert (S3 : nxt s <= nxt s1) by (apply (g_ext _ _ _ G0)).
  assert (SS := gen_sub_shape kd N0 true fa [] s1 c1 s2 E1 W1 ltac:(auto) ltac:(intros n []) ltac:(intros z Hz; apply (AX z Hz)) ND).
  assert (W2 : wfs s2). { apply (shape_wfs _ _ _ _ _ _ _ SS W1). intros z Hz. cbn in Hz. destruct (AX z Hz). lia. }
  assert (S2 : nxt s1 <= nxt s2) by (apply (sh_nxt _ _ _ _ _ _ _ SS)).
  assert (S4 : nxt s2 <= nxt s3) by (apply (gen_lst_nxt _ (gen_unif_nxt k) _ _ _ _ E2)).
  assert (HH : forall z, In z (fx fa) -> B z = Heap) by (intros z Hz; apply HA; destruct (AX z Hz); lia).
  apply (Good_app _ s2); [apply (gen_sub_good true fa [] s1 c1 s2 E1 W1); auto; intros z Hz; apply (AX z Hz)|].
  apply (gen_lst_good (gen_unif fl kd k) (fun s p => tgt_ok N0 s (fst p)) (auxs ax)) with (s := s2); auto.
  - intros sa sb p (L & _) Q u Eu. specialize (Q u Eu). lia.
  - intros p Hp sa ca sb Ea Wa Pa. apply (IH _ _ _ _ _ Ea Wa); auto.
    + intros n Hn. apply LV. right. rewrite <- auxs_snd. apply (lvars_in _ (snd p)); [apply in_map; exact Hp|exact Hn].
    + unfold auxs in Hp. apply in_map_iff in Hp. destruct Hp as ((z, u) & <- & Hp). cbn. rewrite HH; [exact Logic.I|]. rewrite FX. apply (in_map fst _ _ Hp).
  - intros p Hp u Eu. unfold auxs in Hp. apply in_map_iff in Hp. destruct Hp as ((z, v) & <- & Hp). cbn in Eu. injection Eu as <-. assert (Q : In z (fx fa)) by (rewrite FX; apply (in_map fst _ _ Hp)). destruct (AX z Q) as (_ & (Q1 & _)). lia.
Qed.
(** ** gen_load *)
Definition tgl (lp : bool) (t : tm) (x : reg) : Prop := is_var t = true -> ple (lim lp) (rb x).
Lemma gen_load_good : forall lp k t x s c s', gen_load fl kd lp k t x s = Some (c, s') -> wfs s -> lvl N0 (vars t) -> tgt_ok N0 s x -> lp_ok kd lp s (vars t) -> no_meta_var t = true -> tgl lp t x -> Good s s' c.
Proof.
  intros lp. induction k as [|k IH]; intros t x s c s' E W HV HX HL NM HP; destruct t as [n|b|f l].
  1, 4: cbn in E; injection E as E; apply (load_var_good _ _ _ _ _ _ E W); [apply HV; left; reflexivity|apply HP; reflexivity|exact HL].
  1, 3: cbn in E; injection E as <- <-; apply Good_same; auto; try reflexivity; [discriminate|]; apply ti_intro; [exact Logic.I|exact Logic.I|intros y []|intros z []].
  1: discriminate E.
  assert (Sh := gen_load_shape fl kd N0 lp (S k) (Tf f l) x s c s' E W HV HX HL). assert (W' : wfs s') by (apply (shape_wfs _ _ _ _ _ _ _ Sh W); intros z Hz; destruct x; [destruct Hz|]; destruct Hz as [<-|[]]; apply (HX _ eq_refl)). apply Good_bind; [apply (shape_ext _ _ _ _ _ Sh)|exact W'|]. intros HA.
  rewrite gen_load_Tf in E. cbn [no_meta_var] in NM. apply andb_true_iff in NM. destruct NM as (NM1 & NM2). destruct (as_meta f l) as [(m, g)|] eqn:EM.
  - apply as_meta_some in EM. destruct EM as (-> & ->). cbn [new_reg] in E. set (s1 := St (S (nxt s)) (inf s)) in E. destruct (gen_load fl kd lp k g (T (nxt s)) s1) as [(c1, s2)|] eqn:E1; [|discriminate E]. injection E as <- <-.
    assert (W1 : wfs s1) by (apply (new_reg_wfs N0 s W)). assert (L1 := gen_load_nxt _ _ _ _ _ _ _ E1). cbn [nxt s1] in L1. assert (HB : B (nxt s) = Heap) by (apply HA; lia).
    assert (G1 : Good s1 s2 c1).
    { apply (IH _ _ _ _ _ E1 W1).
      - intros n Hn. apply HV. cbn. rewrite app_nil_r. exact Hn.
      - intros u Eu. injection Eu as <-. cbn. destruct W. lia.
      - intros Q n y Hn EK. apply (HL Q n y); [cbn; rewrite app_nil_r; exact Hn|exact EK].
      - cbn in NM2. rewrite andb_true_r in NM2. exact NM2.
      - intros Q. destruct g; try discriminate Q. discriminate NM1. }
    apply (Good_app _ s1 _ [] (c1 ++ _)); [apply Good_silent; auto; cbn; lia|]. apply (Good_app _ s2); [exact G1|]. apply Good_same; auto; try reflexivity; [discriminate|]. apply ti_intro; [exact HB|exact Logic.I|intros y []|]. intros z [<-|[]]. cbn. rewrite HB. exact Logic.I.
  - destruct (flat fl false (Tf f l) s) as ((fa, ax), s1) eqn:EF. destruct (gen_lst (gen_load fl kd lp k) (auxs ax) s1) as [(c1, s2)|] eqn:E1; [|discriminate E]. destruct (gen_sub kd [] fa s2) as (c2, s3) eqn:E2. injection E as <- <-.
    assert (NV := flat_nonvar _ _ _ _ _ _ _ EF). apply flat_Flat in EF. assert (NX := Flat_meta _ _ _ _ _ _ EF NM2). destruct (flat_good _ _ _ _ _ _ EF W) as (G0 & W1 & AX & ND & FX). destruct (Flat_shape _ _ _ _ _ _ EF) as (F1 & F2 & F3 & F4 & F5 & F6 & F7).
    assert (LV : forall n, In n (fvars fa) \/ In n (lvars (map snd ax)) -> In n (vars (Tf f l))) by (intros n Hn; rewrite vars_Tf; apply (Permutation_in _ F6); apply in_app_iff; exact Hn).
    assert (S1 : nxt s <= nxt s1) by (apply (g_ext _ _ _ G0)). assert (S2 : nxt s1 <= nxt s2) by (apply (gen_lst_nxt _ (gen_load_nxt lp k) _ _ _ _ E1)). assert (S3 := gen_sub_nxt _ _ _ _ _ E2).
    assert (HH : forall z, In z (fx fa) -> B z = Heap) by (intros z Hz; apply HA; destruct (AX z Hz); lia).
    assert (LP1 : lp_ok kd lp s1 (vars (Tf f l))) by (intros Q n y Hn EK; unfold known; destruct (g_ext _ _ _ G0) as (_ & Q2); rewrite Q2; apply (HL Q n y Hn EK)).
    assert (G1 : Good s1 s2 c1).
    { apply (gen_lst_good (gen_load fl kd lp k) (fun s p => tgt_ok N0 s (fst p) /\ lp_ok kd lp s (vars (snd p))) (auxs ax)) with (s := s1); auto.
      - intros sa sb p (L & K) (Q1 & Q2). split; [intros u Eu; specialize (Q1 u Eu); lia|]. intros Q n y Hn EK. specialize (Q2 Q n y Hn EK). unfold known. rewrite K by exact Q2. exact Q2.
      - intros p Hp sa ca sb Ea Wa (Pa & Pb). unfold auxs in Hp. apply in_map_iff in Hp. destruct Hp as ((z, u) & <- & Hp). cbn [fst snd] in *. apply (IH _ _ _ _ _ Ea Wa); auto.
        + intros n Hn. apply HV. apply LV. right. apply (lvars_in _ u); [apply (in_map snd _ _ Hp)|exact Hn].
        + apply (NX _ Hp).
        + intros Q. specialize (NV _ Hp). cbn in NV. congruence.
      - intros p Hp. unfold auxs in Hp. apply in_map_iff in Hp. destruct Hp as ((z, v) & <- & Hp). cbn [fst snd]. assert (Q : In z (fx fa)) by (rewrite FX; apply (in_map fst _ _ Hp)). split.
        + intros u Eu. injection Eu as <-. destruct (AX z Q) as (_ & (Q1 & _)). lia.
        + intros Q1 n y Hn EK. apply (LP1 Q1 n y); [|exact EK]. apply LV. right. apply (lvars_in _ v); [apply (in_map snd _ _ Hp)|exact Hn]. }
    apply (Good_app _ s1 _ [] (c1 ++ _) G0). apply (Good_app _ s2); [exact G1|]. assert (W2 := g_wfs _ _ _ G1). apply Good_one; [|exact W2|apply Good_same; auto; try reflexivity; [discriminate|]; apply ti_intro; [exact Logic.I|exact Logic.I|intros y []|intros z []]].
    apply (gen_sub_good false fa [] s2 c2 s3 E2 W2); auto. intros z Hz. destruct (AX z Hz) as (_ & AO). apply (aux_ok_ext false s1); [apply (g_ext _ _ _ G1)|exact AO|]. apply (g_ext _ _ _ G1). unfold known. destruct AO as (_ & Q). rewrite Q. discriminate.
Qed.
End Gen.
