(** Constraints for which leaving out the blocks of bound variables loses nothing; disequality, full equality. *)
Require Import ZArith List Bool Lia Sorted.
Require Import Verif.Heap_Model Verif.FdRange_Model Verif.FdRange_Spec Verif.FdRange_Proofs Verif.FdRange_Set Verif.FdTell_Model Verif.FdTell_Spec Verif.FdTell_Proofs Verif.FdProp_Model Verif.FdProp_Spec Verif.FdProp_Proofs Verif.FdProp_Engine Verif.FdProp_Cstr.
Import ListNotations.
Open Scope Z_scope.

Section C.
Variable sz : nat.
Lemma stable_interval s f i v t u : nth_error f i = Some (AV v) -> cvars sz s -> vals_ground s f t = Ret true -> vals_ground s f u = Ret true ->
  stable s (f, start i (RInterval t u)) <-> exists lo hi, eval s f t = Ret lo /\ eval s f u = Ret hi /\ lo <= rmin (frange (s v)) /\ rmax (frange (s v)) <= hi.
Proof.
  intros N C V1 V2. unfold stable, target, tells. cbn [fst snd btarget brange start beval]. rewrite N, V1, V2. cbn [bind andb]. split.
  - intros [w [o [T [E D]]]]. injection T as <-. destruct (eval s f t) as [lo| |]; [|discriminate..]. destruct (eval s f u) as [hi| |]; [|discriminate..]. cbn [bind] in E. injection E as <-. exists lo, hi. split; [reflexivity|]. split; [reflexivity|].
    destruct (cvar_ends sz (s v) (C v)) as [E1 E2]. apply D in E1, E2. cbn in E1, E2. lia.
  - intros [lo [hi [E1 [E2 [L M]]]]]. exists v, (Some (TInterval lo hi)). split; [reflexivity|]. rewrite E1, E2. split; [reflexivity|]. intros n [Hn _]. cbn. lia.
Qed.
Lemma ground_now s0 s v : cvars sz s0 -> cvars sz s -> smaller s s0 -> is_ground (s0 v) = true -> is_ground (s v) = true /\ rmin (frange (s v)) = rmin (frange (s0 v)) /\ rmax (frange (s v)) = rmin (frange (s0 v)) /\ rmax (frange (s0 v)) = rmin (frange (s0 v)).
Proof.
  intros C0 C Sm G. pose proof (ground_mono sz s0 s v C0 C (Sm v) G) as [G' _]. pose proof (ground_bounds sz _ (C0 v) G). pose proof (ground_bounds sz _ (C v) G'). pose proof (smaller_bounds sz s s0 v C Sm). pose proof (cvar_bounds sz _ (C v)). split; [exact G'|lia].
Qed.
Section V.
Variable s0 : nat -> fdv.
Variables x y z t : nat.
Variables a b c : Z.
Hypothesis Hc : - 2 ^ 30 <= c <= 2 ^ 30.
(* the facts about the bounds in a store *)
Ltac facts C := pose proof (cvar_bounds _ _ (C x)); pose proof (cvar_bounds _ _ (C y)); pose proof (cvar_bounds _ _ (C z)); pose proof (cvar_bounds _ _ (C t)).
Ltac sfacts s s1 C S := pose proof (smaller_bounds sz s s1 x C S); pose proof (smaller_bounds sz s s1 y C S); pose proof (smaller_bounds sz s s1 z C S); pose proof (smaller_bounds sz s s1 t C S).
Ltac opens St := match type of St with stable ?s (?f, start ?i (RInterval ?t ?u)) => match goal with C : cvars sz s |- _ => match eval cbn in (nth_error f i) with Some (AV ?v) => 
   let lo := fresh "lo" in let hi := fresh "hi" in let E1 := fresh "E" in let E2 := fresh "E" in
   apply (proj1 (stable_interval s f i v t u eq_refl C eq_refl eq_refl)) in St; destruct St as [lo [hi [E1 [E2 St]]]];
   cbn -[ck IMAX Z.mul Z.quot Z.add Z.sub] in E1, E2; invk; try (apply ck_inv in E1; destruct E1 as [-> _]); try (injection E1 as <-); try (apply ck_inv in E2; destruct E2 as [-> _]); try (injection E2 as <-) end end end.
Ltac blk H b0 C0 C Sm s0 s := let G := fresh "G" in
  assert (G : stable s b0 \/ skipped_ok sz s0 s b0) by (apply H; cbn; tauto);
  let St := fresh "St" in let s1 := fresh "s1" in let T := fresh "T" in let Gr := fresh "Gr" in let C1 := fresh "C1" in let S1 := fresh "S1" in let S2 := fresh "S2" in let v := fresh "v" in
  destruct G as [St|[[v [T Gr]] [s1 [C1 [S1 [S2 St]]]]]];
  [opens St|injection T as <-; opens St; pose proof (ground_now s0 s _ C0 C Sm Gr); sfacts s1 s0 C1 S1; sfacts s s1 C S2; facts C1].
Ltac close C := match goal with |- stable ?s (?f, start ?i (RInterval ?t ?u)) => apply (proj2 (stable_interval s f i _ t u eq_refl C eq_refl eq_refl)); crunch; cks; eexists _, _; split; [reflexivity|]; split; [reflexivity|]; nums; lia end.
Ltac setup := intros s C0 C Sm H b' Hin; facts C; facts C0; sfacts s s0 C Sm; cbn [fst snd] in *.
Lemma x_eq_y_closed : closed sz s0 ([AV x; AV y], x_eq_y).
Proof.
  setup. blk H ([AV x; AV y], start 0 (RInterval (Min 1) (Max 1))) C0 C Sm s0 s; blk H ([AV x; AV y], start 1 (RInterval (Min 0) (Max 0))) C0 C Sm s0 s; clear H; inlist; close C.
Qed.
Lemma x_plus_c_eq_y_closed : closed sz s0 ([AV x; AI c; AV y], x_plus_c_eq_y).
Proof.
  setup. blk H ([AV x; AI c; AV y], start 0 (RInterval (Sub (Min 2) (Par 1)) (Sub (Max 2) (Par 1)))) C0 C Sm s0 s; blk H ([AV x; AI c; AV y], start 2 (RInterval (Add (Min 0) (Par 1)) (Add (Max 0) (Par 1)))) C0 C Sm s0 s; clear H; inlist; close C.
Qed.
Lemma x_lt_y_closed : closed sz s0 ([AV x; AV y], x_lt_y).
Proof.
  setup. blk H ([AV x; AV y], start 0 (RInterval (Cst 0) (Sub (Max 1) (Cst 1)))) C0 C Sm s0 s; blk H ([AV x; AV y], start 1 (RInterval (Add (Min 0) (Cst 1)) max_integer)) C0 C Sm s0 s; clear H; inlist; close C.
Qed.
Lemma x_lte_c_closed : closed sz s0 ([AV x; AI c], x_lte_c).
Proof.
  setup. blk H ([AV x; AI c], start 0 (RInterval (Cst 0) (Par 1))) C0 C Sm s0 s; clear H; inlist; close C.
Qed.
Lemma x_lte_y_closed : closed sz s0 ([AV x; AV y], x_lte_y).
Proof.
  setup. blk H ([AV x; AV y], start 0 (RInterval (Cst 0) (Max 1))) C0 C Sm s0 s; blk H ([AV x; AV y], start 1 (RInterval (Min 0) max_integer)) C0 C Sm s0 s; clear H; inlist; close C.
Qed.
Lemma x_plus_c_lte_y_closed : closed sz s0 ([AV x; AI c; AV y], x_plus_c_lte_y).
Proof.
  setup. blk H ([AV x; AI c; AV y], start 0 (RInterval (Cst 0) (Sub (Max 2) (Par 1)))) C0 C Sm s0 s; blk H ([AV x; AI c; AV y], start 2 (RInterval (Add (Min 0) (Par 1)) max_integer)) C0 C Sm s0 s; clear H; inlist; close C.
Qed.
Lemma x_gte_c_closed : closed sz s0 ([AV x; AI c], x_gte_c).
Proof.
  setup. blk H ([AV x; AI c], start 0 (RInterval (Par 1) max_integer)) C0 C Sm s0 s; clear H; inlist; close C.
Qed.
Lemma x_plus_c_gte_y_closed : closed sz s0 ([AV x; AI c; AV y], x_plus_c_gte_y).
Proof.
  setup. blk H ([AV x; AI c; AV y], start 0 (RInterval (Sub (Min 2) (Par 1)) max_integer)) C0 C Sm s0 s; blk H ([AV x; AI c; AV y], start 2 (RInterval (Cst 0) (Add (Max 0) (Par 1)))) C0 C Sm s0 s; clear H; inlist; close C.
Qed.
Lemma x_plus_y_eq_z_closed : closed sz s0 ([AV x; AV y; AV z], x_plus_y_eq_z).
Proof.
  setup. blk H ([AV x; AV y; AV z], start 0 (RInterval (Sub (Min 2) (Max 1)) (Sub (Max 2) (Min 1)))) C0 C Sm s0 s; blk H ([AV x; AV y; AV z], start 1 (RInterval (Sub (Min 2) (Max 0)) (Sub (Max 2) (Min 0)))) C0 C Sm s0 s; blk H ([AV x; AV y; AV z], start 2 (RInterval (Add (Min 0) (Min 1)) (Add (Max 0) (Max 1)))) C0 C Sm s0 s; clear H; inlist; close C.
Qed.
Lemma x_plus_y_plus_z_eq_t_closed : closed sz s0 ([AV x; AV y; AV z; AV t], x_plus_y_plus_z_eq_t).
Proof.
  setup. blk H ([AV x; AV y; AV z; AV t], start 0 (RInterval (Sub (Sub (Min 3) (Max 1)) (Max 2)) (Sub (Sub (Max 3) (Min 1)) (Min 2)))) C0 C Sm s0 s; blk H ([AV x; AV y; AV z; AV t], start 1 (RInterval (Sub (Sub (Min 3) (Max 0)) (Max 2)) (Sub (Sub (Max 3) (Min 0)) (Min 2)))) C0 C Sm s0 s; blk H ([AV x; AV y; AV z; AV t], start 2 (RInterval (Sub (Sub (Min 3) (Max 0)) (Max 1)) (Sub (Sub (Max 3) (Min 0)) (Min 1)))) C0 C Sm s0 s; blk H ([AV x; AV y; AV z; AV t], start 3 (RInterval (Add (Add (Min 0) (Min 1)) (Min 2)) (Add (Add (Max 0) (Max 1)) (Max 2)))) C0 C Sm s0 s; clear H; inlist; close C.
Qed.
End V.
(** full equality *)
Lemma x_eq_y_F_good nv s0 (P : (nat -> Z) -> Prop) x y : (x < nv)%nat -> (y < nv)%nat -> (forall g, P g -> g x = g y) -> forall b, In b x_eq_y_F -> good sz nv s0 P ([AV x; AV y], b).
Proof.
  intros Lx Ly M b I. assert (G : forall i v j w, nth_error [AV x; AV y] i = Some (AV v) -> nth_error [AV x; AV y] j = Some (AV w) -> (v < nv)%nat -> (forall g, P g -> g v = g w) -> good sz nv s0 P ([AV x; AV y], start i (RDom j))).
  { intros i v j w Ni Nj L Mv. assert (T : target ([AV x; AV y], start i (RDom j)) = Some v) by (unfold target; cbn [fst snd btarget start]; now rewrite Ni). split; [|split; [|split]].
    - exists v. split; [exact T|]. intros s C Sm. exists (Some (TRng (frange (s w)))). split; [unfold tells; cbn [fst snd brange start beval]; unfold the_var; now rewrite Nj|]. cbn. destruct (C w) as [O [X _]]. split; [|exact X]. unfold fdv_ok in O. destruct (tagv (s w)) as [m|]; [|tauto]. destruct O as [O1 [O2 [O3 [O4 _]]]]. unfold rok, is_int. rewrite O2, O3, O4. split; [exact O1|]. split; [lia|exact X].
    - intros s g v' k C W Pg T' E. rewrite T in T'. injection T' as <-. unfold tells in E. cbn [fst snd brange start beval] in E. unfold the_var in E. rewrite Nj in E. cbn in E. injection E as <-. cbn. rewrite (Mv g Pg). apply W.
    - intros k ch Hk. cbn in Hk. destruct j as [|[|j]]; cbn in *; [| |destruct j; discriminate]; destruct Hk as [Hk|[]]; injection Hk as <- <-; cbn; eauto.
    - exists v. auto. }
  inlist; [apply (G 0%nat x 1%nat y)|apply (G 1%nat y 0%nat x)]; auto. intros g Pg. symmetry. auto.
Qed.
Lemma stable_dom s f i v j w : nth_error f i = Some (AV v) -> nth_error f j = Some (AV w) -> stable s (f, start i (RDom j)) <-> forall n, dom (s v) n -> dom (s w) n.
Proof.
  intros Ni Nj. unfold stable, target, tells. cbn [fst snd btarget brange start beval]. unfold the_var. rewrite Ni, Nj. cbn [bind]. split.
  - intros [v' [o [T [E D]]]]. injection T as <-. injection E as <-. exact D.
  - intros D. exists v, (Some (TRng (frange (s w)))). auto.
Qed.
Lemma x_eq_y_F_closed s0 x y : closed sz s0 ([AV x; AV y], x_eq_y_F).
Proof.
  intros s C0 C Sm H b I. cbn [fst snd] in *. assert (D1 : stable s ([AV x; AV y], start 0 (RDom 1)) \/ skipped_ok sz s0 s ([AV x; AV y], start 0 (RDom 1))) by (apply H; now left). assert (D2 : stable s ([AV x; AV y], start 1 (RDom 0)) \/ skipped_ok sz s0 s ([AV x; AV y], start 1 (RDom 0))) by (apply H; right; now left). clear H.
  assert (K : forall u w, is_ground (s0 u) = true -> (forall n, dom (s w) n -> dom (s u) n) -> forall n, dom (s u) n -> dom (s w) n).
  { intros u w G Hs n Hn. destruct (ground_now s0 s u C0 C Sm G) as [Gs _]. unfold is_ground in Gs. destruct (tagv (s u)) as [m|] eqn:Tu; [|discriminate]. pose proof (bound sz _ m (proj1 (C u)) Tu) as B. destruct (cvar_ends sz (s w) (C w)) as [E _]. pose proof E as E'. apply Hs, B in E'. apply B in Hn. subst n. rewrite <- E'. exact E. }
  assert (K2 : forall u w s1, cvars sz s1 -> smaller s1 s0 -> smaller s s1 -> is_ground (s0 u) = true -> is_ground (s0 w) = true -> (forall n, dom (s1 u) n -> dom (s1 w) n) -> forall n, dom (s u) n -> dom (s w) n).
  { intros u w s1 C1 S1 S2 Gu Gw Hs n Hn. apply S2 in Hn. apply Hs in Hn. apply (ground_mono sz s1 s w C1 C); auto. apply (ground_now s0 s1 w); auto. }
  destruct D1 as [D1|[[v [T Gr]] [s1 [C1 [S1 [S2 D1]]]]]]; destruct D2 as [D2|[[w [T' Gr']] [s2 [C2 [S1' [S2' D2]]]]]].
  - inlist; assumption.
  - injection T' as <-. inlist; [exact D1|]. apply (stable_dom s [AV x; AV y] 1 y 0 x); auto. apply K; [exact Gr'|]. exact (proj1 (stable_dom s [AV x; AV y] 0 x 1 y eq_refl eq_refl) D1).
  - injection T as <-. inlist; [|exact D2]. apply (stable_dom s [AV x; AV y] 0 x 1 y); auto. apply K; [exact Gr|]. exact (proj1 (stable_dom s [AV x; AV y] 1 y 0 x eq_refl eq_refl) D2).
  - injection T as <-. injection T' as <-. inlist.
    + apply (stable_dom s [AV x; AV y] 0 x 1 y); auto. apply (K2 x y s1); auto. exact (proj1 (stable_dom s1 [AV x; AV y] 0 x 1 y eq_refl eq_refl) D1).
    + apply (stable_dom s [AV x; AV y] 1 y 0 x); auto. apply (K2 y x s2); auto. exact (proj1 (stable_dom s2 [AV x; AV y] 1 y 0 x eq_refl eq_refl) D2).
Qed.
(** disequality: one block, with the value it removes once [w] is bound *)
Definition removes (f : list aval) (i v w : nat) (t : tm) (d : Z) : Prop :=
  nth_error f i = Some (AV v) /\ forall s, cvars sz s -> vals_ground s f t = Ret (is_ground (s w)) /\ eval s f t = Ret (rmin (frange (s w)) + d).
Lemma good_not nv s0 (P : (nat -> Z) -> Prop) f i v w t d : removes f i v w t d -> (v < nv)%nat -> - 2 ^ 30 <= d <= 2 ^ 30 -> framed (f, start i (RNot t)) -> rmax (frange (s0 v)) <= vmax sz -> (forall g, P g -> g v <> g w + d) -> good sz nv s0 P (f, start i (RNot t)).
Proof.
  intros [N E] L Hd F Vm M. assert (T : target (f, start i (RNot t)) = Some v) by (unfold target; cbn [fst snd btarget start]; now rewrite N). split; [|split; [|split; [exact F|exists v; auto]]].
  - exists v. split; [exact T|]. intros s C Sm. destruct (E s C) as [E1 E2]. unfold tells. cbn [fst snd brange start beval]. unfold one. rewrite E1, E2. cbn [bind]. destruct (is_ground (s w)); [|exists None; auto]. exists (Some (TNot (rmin (frange (s w)) + d))). split; [reflexivity|]. cbn. pose proof (cvar_bounds sz _ (C w)). split; [nums; lia|]. intros _. pose proof (smaller_bounds sz s s0 v C Sm). lia.
  - intros s g v' k C W Pg T' Et. rewrite T in T'. injection T' as <-. destruct (E s C) as [E1 E2]. unfold tells in Et. cbn [fst snd brange start beval] in Et. unfold one in Et. rewrite E1, E2 in Et. cbn [bind] in Et. destruct (is_ground (s w)) eqn:G; [|discriminate]. injection Et as <-. cbn. intros Q. apply (M g Pg). rewrite Q. f_equal. unfold is_ground in G. destruct (tagv (s w)) as [m|] eqn:Tw; [|discriminate]. pose proof (bound sz _ m (proj1 (C w)) Tw) as B. pose proof (proj1 (B _) (W w)) as B1. destruct (cvar_ends sz (s w) (C w)) as [B2 _]. apply B in B2. congruence.
Qed.
Lemma stable_not s f i v w t d : cvars sz s -> removes f i v w t d -> stable s (f, start i (RNot t)) <-> (is_ground (s w) = true -> ~ dom (s v) (rmin (frange (s w)) + d)).
Proof.
  intros C [N E]. destruct (E s C) as [E1 E2]. unfold stable, target, tells. cbn [fst snd btarget brange start beval]. unfold one. rewrite N, E1, E2. cbn [bind]. split.
  - intros [v' [o [T [Eo D]]]] G. rewrite G in Eo. injection T as <-. injection Eo as <-. intros Q. exact (D _ Q eq_refl).
  - intros D. exists v. destruct (is_ground (s w)); [|exists None; auto]. exists (Some (TNot (rmin (frange (s w)) + d))). split; [reflexivity|]. split; [reflexivity|]. intros n Hn ->. exact (D eq_refl Hn).
Qed.
Lemma closed_not s0 f i v t j w u d : removes f i v w t d -> removes f j w v u (- d) -> closed sz s0 (f, [start i (RNot t); start j (RNot u)]).
Proof.
  intros R1 R2 s C0 C Sm H b I. cbn [fst snd] in *. assert (D1 := H _ (or_introl eq_refl)). assert (D2 := H _ (or_intror (or_introl eq_refl))). clear H.
  assert (T1 : target (f, start i (RNot t)) = Some v) by (unfold target; cbn [fst snd btarget start]; now rewrite (proj1 R1)). assert (T2 : target (f, start j (RNot u)) = Some w) by (unfold target; cbn [fst snd btarget start]; now rewrite (proj1 R2)).
  assert (Gd : forall x n, is_ground (s x) = true -> dom (s x) n -> n = rmin (frange (s x))). { intros x n G D. pose proof (ground_bounds sz _ (C x) G). destruct D as [D _]. lia. }
  assert (K : forall x y e, (is_ground (s x) = true -> ~ dom (s y) (rmin (frange (s x)) + e)) -> is_ground (s x) = true -> is_ground (s y) = true -> ~ dom (s x) (rmin (frange (s y)) + - e)).
  { intros x y e Hs Gx Gy Q. apply (Hs Gx). apply (Gd x _ Gx) in Q. replace (rmin (frange (s x)) + e) with (rmin (frange (s y))) by lia. apply (cvar_ends sz _ (C y)). }
  assert (K2 : forall s1 x y e, cvars sz s1 -> smaller s1 s0 -> smaller s s1 -> is_ground (s0 x) = true -> (is_ground (s1 y) = true -> ~ dom (s1 x) (rmin (frange (s1 y)) + e)) -> is_ground (s0 y) = true -> ~ dom (s x) (rmin (frange (s y)) + e)).
  { intros s1 x y e C1 S1 S2 Gx Hs Gy Q. destruct (ground_now s0 s1 y C0 C1 S1 Gy) as [G1 [E1 _]], (ground_now s0 s y C0 C Sm Gy) as [G2 [E2 _]]. apply (Hs G1). rewrite E1, <- E2. now apply S2. }
  destruct D1 as [D1|[[v' [T Gr]] [s1 [C1 [S1 [S2 D1]]]]]]; destruct D2 as [D2|[[w' [T' Gr']] [s2 [C2 [S1' [S2' D2]]]]]].
  - inlist; assumption.
  - rewrite T2 in T'. injection T' as <-. inlist; [exact D1|]. apply (stable_not s f j w v u (- d) C R2). intros Gv. apply (K w v d); auto; [exact (proj1 (stable_not s f i v w t d C R1) D1)|]. apply (ground_now s0 s w C0 C Sm Gr').
  - rewrite T1 in T. injection T as <-. inlist; [|exact D2]. apply (stable_not s f i v w t d C R1). intros Gw. replace d with (- - d) by lia. apply (K v w (- d)); auto; [exact (proj1 (stable_not s f j w v u (- d) C R2) D2)|]. apply (ground_now s0 s v C0 C Sm Gr).
  - rewrite T1 in T. rewrite T2 in T'. injection T as <-. injection T' as <-. inlist.
    + apply (stable_not s f i v w t d C R1). intros _. apply (K2 s1); auto. exact (proj1 (stable_not s1 f i v w t d C1 R1) D1).
    + apply (stable_not s f j w v u (- d) C R2). intros _. apply (K2 s2); auto. exact (proj1 (stable_not s2 f j w v u (- d) C2 R2) D2).
Qed.
Section N.
Variables x y : nat.
Variable c : Z.
Hypothesis Hc : - 2 ^ 30 <= c <= 2 ^ 30.
Lemma removes_x : removes [AV x; AV y] 0 x y (Val 1) 0.
Proof. split; [reflexivity|]. intros s C. cbn. split; [reflexivity|f_equal; lia]. Qed.
Lemma removes_y : removes [AV x; AV y] 1 y x (Val 0) (- 0).
Proof. split; [reflexivity|]. intros s C. cbn. split; [reflexivity|f_equal; lia]. Qed.
Lemma removes_xc : removes [AV x; AI c; AV y] 0 x y (Sub (Val 2) (Par 1)) (- c).
Proof. split; [reflexivity|]. intros s C. pose proof (cvar_bounds sz _ (C y)). cbn -[ck]. split; [now destruct (is_ground (s y))|]. rewrite ck_ok by (nums; lia). f_equal. Qed.
Lemma removes_yc : removes [AV x; AI c; AV y] 2 y x (Add (Val 0) (Par 1)) (- - c).
Proof. split; [reflexivity|]. intros s C. pose proof (cvar_bounds sz _ (C x)). cbn -[ck]. split; [now destruct (is_ground (s x))|]. rewrite ck_ok by (nums; lia). f_equal. lia. Qed.
Ltac fr := let i := fresh in let ch := fresh in let H := fresh in intros i ch H; cbn in H; repeat (destruct H as [H|H]; [injection H as <- <-; cbn; eauto|]); destruct H.
Lemma x_neq_y_good nv s0 (P : (nat -> Z) -> Prop) : (x < nv)%nat -> (y < nv)%nat -> rmax (frange (s0 x)) <= vmax sz -> rmax (frange (s0 y)) <= vmax sz -> (forall g, P g -> g x <> g y) -> forall b, In b x_neq_y -> good sz nv s0 P ([AV x; AV y], b).
Proof.
  intros Lx Ly Vx Vy M b I. inlist; [apply (good_not nv s0 P _ _ x y _ 0 removes_x)|apply (good_not nv s0 P _ _ y x _ (- 0) removes_y)]; [assumption|lia|fr|assumption|intros g Pg Q; apply (M g Pg); lia|assumption|lia|fr|assumption|intros g Pg Q; apply (M g Pg); lia].
Qed.
Lemma x_neq_y_closed s0 : closed sz s0 ([AV x; AV y], x_neq_y).
Proof. exact (closed_not s0 _ 0 x _ 1 y _ 0 removes_x removes_y). Qed.
Lemma x_plus_c_neq_y_good nv s0 (P : (nat -> Z) -> Prop) : (x < nv)%nat -> (y < nv)%nat -> rmax (frange (s0 x)) <= vmax sz -> rmax (frange (s0 y)) <= vmax sz -> (forall g, P g -> g x + c <> g y) -> forall b, In b x_plus_c_neq_y -> good sz nv s0 P ([AV x; AI c; AV y], b).
Proof.
  intros Lx Ly Vx Vy M b I. inlist; [apply (good_not nv s0 P _ _ x y _ (- c) removes_xc)|apply (good_not nv s0 P _ _ y x _ (- - c) removes_yc)]; [assumption|lia|fr|assumption|intros g Pg Q; apply (M g Pg); lia|assumption|lia|fr|assumption|intros g Pg Q; apply (M g Pg); lia].
Qed.
Lemma x_plus_c_neq_y_closed s0 : closed sz s0 ([AV x; AI c; AV y], x_plus_c_neq_y).
Proof. exact (closed_not s0 _ 0 x _ 2 y _ (- c) removes_xc removes_yc). Qed.
Lemma x_neq_c_good nv s0 (P : (nat -> Z) -> Prop) : (x < nv)%nat -> rmax (frange (s0 x)) <= vmax sz -> (forall g, P g -> g x <> c) -> forall b, In b x_neq_c -> good sz nv s0 P ([AV x; AI c], b).
Proof.
  intros Lx Vx M b I. inlist. split; [|split; [|split; [fr|exists x; auto]]].
  - exists x. split; [reflexivity|]. intros s C Sm. exists (Some (TNot c)). split; [reflexivity|]. cbn. split; [nums; lia|]. intros _. pose proof (smaller_bounds sz s s0 x C Sm). lia.
  - intros s g v k C W Pg T E. injection T as <-. injection E as <-. cbn. auto.
Qed.
Lemma x_neq_c_closed s0 : closed sz s0 ([AV x; AI c], x_neq_c).
Proof.
  intros s C0 C Sm H b I. cbn [fst snd] in *. inlist. destruct (H _ (or_introl eq_refl)) as [D|[_ [s1 [C1 [S1 [S2 [v [o [T [E D]]]]]]]]]]; [exact D|]. injection T as <-. injection E as <-. exists x, (Some (TNot c)). split; [reflexivity|]. split; [reflexivity|]. intros n Hn. apply D. now apply S2.
Qed.
End N.
End C.
