(** Linear constraints with coefficients: leaving out the blocks of bound variables loses nothing. *)
Require Import ZArith List Bool Lia.
Require Import Verif.Heap_Model Verif.FdRange_Model Verif.FdRange_Spec Verif.FdRange_Proofs Verif.FdTell_Proofs Verif.FdTell_Model Verif.FdTell_Spec Verif.FdProp_Model Verif.FdProp_Spec Verif.FdProp_Proofs Verif.FdProp_Engine Verif.FdProp_Cstr Verif.FdProp_Closed.
Import ListNotations.
Open Scope Z_scope.

Lemma up_inv a n x : 0 < a -> 0 <= x -> Z.quot (n + a - 1) a <= x -> n <= a * x.
Proof.
  intros A X Q. destruct (Z_lt_le_dec (n + a - 1) 0) as [L|L]; [nia|]. rewrite Z.quot_div_nonneg in Q by lia. pose proof (Z.mul_succ_div_gt (n + a - 1) a A). nia.
Qed.
Lemma dn_inv a n x : 0 < a -> 0 <= x -> x <= Z.quot n a -> a * x <= n \/ (n < 0 /\ x = 0).
Proof.
  intros A X Q. destruct (Z_lt_le_dec n 0) as [L|L].
  - right. split; [exact L|]. pose proof (Z.quot_le_mono n 0 a A ltac:(lia)) as M. rewrite Z.quot_0_l in M by lia. lia.
  - left. rewrite Z.quot_div_nonneg in Q by lia. pose proof (Z.mul_div_le n a A). nia.
Qed.
Lemma mul_mono a p q : 1 <= a -> p <= q -> a * p <= a * q.
Proof. nia. Qed.
Lemma pos_le a p : 1 <= a -> 0 <= p -> p <= a * p.
Proof. nia. Qed.
Section C.
Variable sz : nat.
Variable s0 : nat -> fdv.
Variables x y z t : nat.
Variables a b : Z.
Hypothesis Ha : 1 <= a <= 2 ^ 30.
Hypothesis Hb : 1 <= b <= 2 ^ 30.
Notation lo s v := (rmin (frange (s v))).
Notation hi s v := (rmax (frange (s v))).
Ltac facts C := pose proof (cvar_bounds _ _ (C x)); pose proof (cvar_bounds _ _ (C y)); pose proof (cvar_bounds _ _ (C z)); pose proof (cvar_bounds _ _ (C t)).
Ltac sfacts s s1 C S := pose proof (smaller_bounds sz s s1 x C S); pose proof (smaller_bounds sz s s1 y C S); pose proof (smaller_bounds sz s s1 z C S); pose proof (smaller_bounds sz s s1 t C S).
(* products *)
Ltac prods s := pose proof (mul_mono a (lo s x) (hi s x) ltac:(lia) ltac:(lia)); pose proof (mul_mono b (lo s y) (hi s y) ltac:(lia) ltac:(lia)); pose proof (pos_le a (lo s x) ltac:(lia) ltac:(lia)); pose proof (pos_le b (lo s y) ltac:(lia) ltac:(lia)).
Ltac sprods s s1 := pose proof (mul_mono a (lo s1 x) (lo s x) ltac:(lia) ltac:(lia)); pose proof (mul_mono b (lo s1 y) (lo s y) ltac:(lia) ltac:(lia)); pose proof (mul_mono a (hi s x) (hi s1 x) ltac:(lia) ltac:(lia)); pose proof (mul_mono b (hi s y) (hi s1 y) ltac:(lia) ltac:(lia)).
Ltac nz := repeat match goal with |- context [if ?a =? 0 then _ else _] => rewrite (proj2 (Z.eqb_neq a 0)) by lia end; cbn -[ck IMAX Z.mul Z.quot Z.add Z.sub].
Ltac nzh H := repeat match type of H with context [if ?a =? 0 then _ else _] => rewrite (proj2 (Z.eqb_neq a 0)) in H by lia end; cbn -[ck IMAX Z.mul Z.quot Z.add Z.sub] in H.
Ltac ends E := try (apply ck_inv in E; destruct E as [-> _]); try (injection E as <-).
Ltac quots := repeat match goal with
  | H : Z.quot (?n + ?d - 1) ?d <= ?x |- _ => apply up_inv in H; [|lia|lia]
  | H : ?x <= Z.quot ?n ?d |- _ => apply dn_inv in H; [|lia|lia]
  end.
Ltac opens St := match type of St with stable ?s (?f, start ?i (RInterval ?t ?u)) => match goal with C : cvars sz s |- _ => match eval cbn in (nth_error f i) with Some (AV ?v) => 
   let lo := fresh "lo" in let hi := fresh "hi" in let E1 := fresh "E" in let E2 := fresh "E" in let St2 := fresh "St" in
   apply (proj1 (stable_interval sz s f i v t u eq_refl C eq_refl eq_refl)) in St; destruct St as [lo [hi [E1 [E2 [St St2]]]]];
   cbn -[ck IMAX Z.mul Z.quot Z.add Z.sub] in E1, E2; repeat (progress (invk; nzh E1; nzh E2)); ends E1; ends E2 end end end.
Ltac same s s1 s0 := match goal with G : is_ground (s ?v) = true /\ _ |- _ => 
   let E := fresh "Eq" in let E1 := fresh "Eq" in let E2 := fresh "Eq" in let E3 := fresh "Eq" in
   assert (E : hi s v = lo s v /\ lo s0 v = lo s v /\ hi s0 v = lo s v) by lia; clear G; destruct E as [E1 [E2 E3]];
   pose proof (f_equal (Z.mul a) E1); pose proof (f_equal (Z.mul a) E2); pose proof (f_equal (Z.mul a) E3); pose proof (f_equal (Z.mul b) E1); pose proof (f_equal (Z.mul b) E2); pose proof (f_equal (Z.mul b) E3) end.
Ltac blk H f b0 C0 C Sm s0 s := let G := fresh "G" in
  assert (G : stable s (f, b0) \/ skipped_ok sz s0 s (f, b0)) by (apply H; cbn; tauto);
  let St := fresh "St" in let s1 := fresh "s1" in let T := fresh "T" in let Gr := fresh "Gr" in let C1 := fresh "C1" in let S1 := fresh "S1" in let S2 := fresh "S2" in let v := fresh "v" in
  destruct G as [St|[[v [T Gr]] [s1 [C1 [S1 [S2 St]]]]]];
  [opens St; quots|injection T as <-; opens St; pose proof (ground_now sz s0 s _ C0 C Sm Gr); sfacts s s1 C S2; sfacts s1 s0 C1 S1; facts C1; same s s1 s0; prods s1; sprods s s1; sprods s1 s0; quots; clear Gr S1 S2 C1].
Lemma safe_interval s f i v t' u : safe sz s0 (f, start i (RInterval t' u)) -> nth_error f i = Some (AV v) -> vals_ground s f t' = Ret true -> vals_ground s f u = Ret true -> cvars sz s -> smaller s s0 ->
  exists lo hi, eval s f t' = Ret lo /\ eval s f u = Ret hi.
Proof.
  intros [w [_ Sf]] N V1 V2 C Sm. destruct (Sf s C Sm) as [o [E _]]. unfold tells in E. cbn [fst snd brange start beval] in E. rewrite V1, V2 in E. cbn [bind andb] in E.
  destruct (eval s f t') as [lo| |]; [|discriminate..]. destruct (eval s f u) as [hi| |]; [|discriminate..]. eauto.
Qed.
Ltac close C Sm Gd := match goal with |- stable ?s (?f, start ?i (RInterval ?t ?u)) => match eval cbn in (nth_error f i) with Some (AV ?v) =>
   let lo := fresh "lo" in let hi := fresh "hi" in let E1 := fresh "E" in let E2 := fresh "E" in let F1 := fresh "F" in let F2 := fresh "F" in
   apply (proj2 (stable_interval sz s f i v t u eq_refl C eq_refl eq_refl));
   destruct (safe_interval s f i v t u (proj1 (Gd (start i (RInterval t u)) ltac:(cbn; tauto))) eq_refl eq_refl eq_refl C Sm) as [lo [hi [E1 E2]]];
   exists lo, hi; split; [exact E1|]; split; [exact E2|];
   cbn -[ck IMAX Z.mul Z.quot Z.add Z.sub] in E1, E2; repeat (progress (invk; nzh E1; nzh E2)); ends E1; ends E2;
   clear Gd; split; first [lia|apply div_up; lia|apply div_dn; lia] end end.
Ltac setup s C0 C Sm H b' Hin := intros s C0 C Sm H b' Hin; facts C; facts C0; sfacts s s0 C Sm; prods s; prods s0; sprods s s0; cbn [fst snd] in *.
Ltac allb H f l C0 C Sm s0 s := match l with
  | nil => idtac
  | ?b0 :: ?l' => blk H f b0 C0 C Sm s0 s; allb H f l' C0 C Sm s0 s
  end.
Ltac opened l := eval cbv beta zeta delta [ax_eq_y ax_plus_y_eq_z ax_plus_by_eq_z ax_plus_y_plus_z_eq_t ax_plus_by_plus_z_eq_t] in l.
Ltac lin f l Gd := let s := fresh "s" in let C0 := fresh "C0" in let C := fresh "C" in let Sm := fresh "Sm" in let H := fresh "H" in let b' := fresh "b'" in let Hin := fresh "Hin" in
  let l := opened l in change (closed sz s0 (f, l)); setup s C0 C Sm H b' Hin; allb H f l C0 C Sm s0 s; clear H; inlist; close C Sm Gd.
Notation nv := (S (x + y + z + t)).
Notation no := (fun _ : nat -> Z => False).
Ltac lt := lia.
Lemma ax_eq_y_closed : a * hi s0 x <= 2 ^ 30 -> closed sz s0 ([AI a; AV x; AV y], ax_eq_y).
Proof. intros Fi. pose proof (ax_eq_y_good sz nv s0 no x y z t a 0 ltac:(lt) ltac:(lt) ltac:(lt) ltac:(lt) ltac:(lia) Ha Fi ltac:(tauto)) as Gd. lin [AI a; AV x; AV y] ax_eq_y Gd. Qed.
Lemma ax_plus_y_eq_z_closed : a * hi s0 x <= 2 ^ 30 -> closed sz s0 ([AI a; AV x; AV y; AV z], ax_plus_y_eq_z).
Proof. intros Fi. pose proof (ax_plus_y_eq_z_good sz nv s0 no x y z t a 0 ltac:(lt) ltac:(lt) ltac:(lt) ltac:(lt) ltac:(lia) Ha Fi ltac:(tauto)) as Gd. lin [AI a; AV x; AV y; AV z] ax_plus_y_eq_z Gd. Qed.
Lemma ax_plus_by_eq_z_closed : fits s0 x y a b -> closed sz s0 ([AI a; AV x; AI b; AV y; AV z], ax_plus_by_eq_z).
Proof. intros Fi. pose proof (ax_plus_by_eq_z_good sz nv s0 no x y z t a b 0 ltac:(lt) ltac:(lt) ltac:(lt) ltac:(lt) ltac:(lia) Ha Hb Fi ltac:(tauto)) as Gd. unfold fits in Fi. lin [AI a; AV x; AI b; AV y; AV z] ax_plus_by_eq_z Gd. Qed.
Lemma ax_plus_y_plus_z_eq_t_closed : a * hi s0 x <= 2 ^ 30 -> closed sz s0 ([AI a; AV x; AV y; AV z; AV t], ax_plus_y_plus_z_eq_t).
Proof. intros Fi. pose proof (ax_plus_y_plus_z_eq_t_good sz nv s0 no x y z t a 0 ltac:(lt) ltac:(lt) ltac:(lt) ltac:(lt) ltac:(lia) Ha Fi ltac:(tauto)) as Gd. lin [AI a; AV x; AV y; AV z; AV t] ax_plus_y_plus_z_eq_t Gd. Qed.
Lemma ax_plus_by_plus_z_eq_t_closed : fits s0 x y a b -> closed sz s0 ([AI a; AV x; AI b; AV y; AV z; AV t], ax_plus_by_plus_z_eq_t).
Proof. intros Fi. pose proof (ax_plus_by_plus_z_eq_t_good sz nv s0 no x y z t a b 0 ltac:(lt) ltac:(lt) ltac:(lt) ltac:(lt) ltac:(lia) Ha Hb Fi ltac:(tauto)) as Gd. unfold fits in Fi. lin [AI a; AV x; AI b; AV y; AV z; AV t] ax_plus_by_plus_z_eq_t Gd. Qed.
End C.
