(** Proofs about the constraints of fd_math_fd.fd. *)
Require Import ZArith List Bool Lia Sorted.
Require Import Verif.Heap_Model Verif.FdRange_Model Verif.FdRange_Spec Verif.FdRange_Proofs Verif.FdRange_Set Verif.FdTell_Model Verif.FdTell_Spec Verif.FdTell_Proofs Verif.FdProp_Model Verif.FdProp_Spec Verif.FdProp_Proofs Verif.FdProp_Engine.
Import ListNotations.
Open Scope Z_scope.

Lemma ck_inv x y : ck x = Ret y -> y = x /\ is_int x.
Proof. unfold ck, is_int. destruct (Z.leb_spec INT_MIN x), (Z.leb_spec x INT_MAX); cbn; intros E; try discriminate. injection E as <-. split; [reflexivity|split; assumption]. Qed.
Lemma div_dn a n x : 0 < a -> 0 <= x -> a * x <= n -> x <= Z.quot n a.
Proof. intros A X N. rewrite Z.quot_div_nonneg by nia. apply Z.div_le_lower_bound; lia. Qed.
Lemma div_up a n x : 0 < a -> 0 <= x -> n <= a * x -> Z.quot (n + a - 1) a <= x.
Proof.
  intros A X N. destruct (Z_le_dec 0 (n + a - 1)) as [L|L].
  - rewrite Z.quot_div_nonneg by lia. assert (Z.div (n + a - 1) a < x + 1); [|lia]. apply Z.div_lt_upper_bound; nia.
  - assert (E : n + a - 1 = - (- (n + a - 1))) by lia. rewrite E, Z.quot_opp_l by lia. assert (0 <= Z.quot (- (n + a - 1)) a) by (apply Z.quot_pos; lia). lia.
Qed.
Lemma quot_small a n m : 0 < a -> - m <= n <= m -> - m <= Z.quot n a <= m.
Proof.
  intros A N. assert (M : 0 <= m) by lia. assert (G : forall k, 0 <= k <= m -> 0 <= Z.quot k a <= m).
  { intros k K. split; [apply Z.quot_pos; lia|]. rewrite Z.quot_div_nonneg by lia. apply Z.le_trans with k; [|lia]. apply Z.div_le_upper_bound; nia. }
  destruct (Z_le_dec 0 n) as [L|L]; [specialize (G n); lia|]. assert (E : n = - (- n)) by lia. rewrite E, Z.quot_opp_l by lia. specialize (G (- n)). lia.
Qed.
Lemma quot_int a n : 0 < a -> - (2 ^ 31 - 1) <= n <= 2 ^ 31 - 1 -> is_int (Z.quot n a).
Proof. intros A N. pose proof (quot_small a n (2 ^ 31 - 1) A N). unfold is_int, INT_MIN, INT_MAX. lia. Qed.
Lemma quot_lo a n : 0 < a -> - (2 ^ 31 - 1) <= n <= 2 ^ 31 - 1 -> INT_MIN < Z.quot n a <= INT_MAX.
Proof. intros A N. pose proof (quot_small a n (2 ^ 31 - 1) A N). unfold is_int, INT_MIN, INT_MAX. lia. Qed.
Lemma within_bounds sz s f v : cvars sz s -> within s f -> 0 <= rmin (frange (s v)) <= f v /\ f v <= rmax (frange (s v)) <= IMAX.
Proof. intros C W. specialize (C v). specialize (W v). destruct C as [_ [_ [L M]]], W as [W _]. lia. Qed.
Lemma cvar_bounds sz x : cvar sz x -> 0 <= rmin (frange x) <= rmax (frange x) /\ rmax (frange x) <= IMAX.
Proof. intros C. destruct (cvar_ends sz x C) as [[E _] _]. destruct C as [_ [_ [L M]]]. lia. Qed.
Lemma smaller_bounds sz s s0 v : cvars sz s -> smaller s s0 -> rmin (frange (s0 v)) <= rmin (frange (s v)) /\ rmax (frange (s v)) <= rmax (frange (s0 v)).
Proof. intros C S. destruct (cvar_ends sz (s v) (C v)) as [E1 E2]. apply S in E1, E2. destruct E1 as [E1 _], E2 as [E2 _]. lia. Qed.
Lemma ground_bounds sz x : cvar sz x -> is_ground x = true -> rmin (frange x) = rmax (frange x).
Proof. intros [O _] G. unfold is_ground in G. unfold fdv_ok in O. destruct (tagv x); [|discriminate]. destruct O as [_ [-> [-> _]]]. reflexivity. Qed.

Ltac nums := unfold is_int, INT_MIN, INT_MAX, IMAX in *; change (2 ^ 31) with 2147483648 in *; change (2 ^ 28) with 268435456 in *; change (2 ^ 30) with 1073741824 in *.
Ltac inlist := match goal with H : In ?b ?l |- _ => repeat (destruct H as [<-|H]); [..|destruct H] end.
Ltac get_bounds C v := let H := fresh "Bd" in pose proof (cvar_bounds _ _ (C v)) as H.
(* evaluate a block, given that its operations stay in range *)
Ltac crunch := cbn -[ck IMAX Z.mul Z.quot Z.add Z.sub].
Ltac cks := repeat (rewrite ck_ok by (first [apply quot_int; nums; nia|nums; nia]); cbn -[ck IMAX Z.mul Z.quot Z.add Z.sub]).
Ltac invk := repeat match goal with
  | H : context [bind (ck ?x) _] |- _ => let E := fresh "E" in destruct (ck x) as [?z| |] eqn:E; [apply ck_inv in E; destruct E as [-> ?]|discriminate H|discriminate H]; cbn -[ck IMAX Z.mul Z.quot Z.add Z.sub] in H
  end.

Section C.
Variable sz : nat.
Variable nv : nat.
Variable s0 : nat -> fdv.
Variable P : (nat -> Z) -> Prop.
Hypothesis C0 : cvars sz s0.

Lemma frame_of f b : (forall i ch, In (i, ch) (block_deps (length f) b) -> exists v, nth_error f i = Some (AV v)) -> framed (f, b).
Proof. intros H i ch. exact (H i ch). Qed.
(** an interval whose bounds are computed without leaving the ints *)
Lemma good_interval f i v t u : nth_error f i = Some (AV v) -> (v < nv)%nat -> framed (f, start i (RInterval t u)) ->
  (forall s, cvars sz s -> smaller s s0 -> exists lo hi, vals_ground s f t = Ret true /\ vals_ground s f u = Ret true /\ eval s f t = Ret lo /\ eval s f u = Ret hi /\ INT_MIN < lo <= INT_MAX /\ is_int hi) ->
  (forall s g lo hi, cvars sz s -> within s g -> P g -> eval s f t = Ret lo -> eval s f u = Ret hi -> lo <= g v <= hi) -> good sz nv s0 P (f, start i (RInterval t u)).
Proof.
  intros N L F S D. assert (T : target (f, start i (RInterval t u)) = Some v) by (unfold target; cbn; now rewrite N). split; [|split; [|split; [exact F|exists v; auto]]].
  - exists v. split; [exact T|]. intros s Cs Sm. destruct (S s Cs Sm) as [lo [hi [V1 [V2 [E1 [E2 [B1 B2]]]]]]]. exists (Some (TInterval lo hi)). split; [|split; auto]. unfold tells. cbn [fst snd brange start beval]. now rewrite V1, V2, E1, E2.
  - intros s g w k Cs W Pg Tw Et. rewrite T in Tw. injection Tw as <-. unfold tells in Et. cbn [fst snd brange start beval] in Et. destruct (vals_ground s f t) as [x| |]; [|discriminate..]. destruct (vals_ground s f u) as [y| |]; [|discriminate..]. cbn [bind] in Et. destruct (x && y); [|discriminate]. destruct (eval s f t) as [lo| |] eqn:E1; [|discriminate..]. destruct (eval s f u) as [hi| |] eqn:E2; [|discriminate..]. cbn [bind] in Et. injection Et as <-. cbn. exact (D s g lo hi Cs W Pg E1 E2).
Qed.
Ltac fr := let i := fresh in let ch := fresh in let H := fresh in intros i ch H; cbn in H; repeat (destruct H as [H|H]; [injection H as <- <-; cbn; eauto|]); destruct H.
Ltac goodi v := apply (good_interval _ _ v); [reflexivity|assumption|fr| |].

Ltac nz := repeat match goal with |- context [if ?a =? 0 then _ else _] => first [rewrite (proj2 (Z.eqb_neq a 0)) by lia|destruct (Z.eqb_spec a 0)] end; cbn -[ck IMAX Z.mul Z.quot Z.add Z.sub].
Ltac nzh H := repeat match type of H with context [if ?a =? 0 then _ else _] => first [rewrite (proj2 (Z.eqb_neq a 0)) in H by lia|destruct (Z.eqb_spec a 0)] end; cbn -[ck IMAX Z.mul Z.quot Z.add Z.sub] in H.
Section V.
Variables x y z t : nat.
Variables a b c : Z.
Hypothesis Lx : (x < nv)%nat.
Hypothesis Ly : (y < nv)%nat.
Hypothesis Lz : (z < nv)%nat.
Hypothesis Lt : (t < nv)%nat.
Hypothesis Hc : - 2 ^ 30 <= c <= 2 ^ 30.
Ltac safeb := intros s Cs Sm; get_bounds Cs x; get_bounds Cs y; get_bounds Cs z; get_bounds Cs t;
  pose proof (smaller_bounds sz s s0 x Cs Sm); pose proof (smaller_bounds sz s s0 y Cs Sm); pose proof (smaller_bounds sz s s0 z Cs Sm); pose proof (smaller_bounds sz s s0 t Cs Sm).
Ltac fin := eexists _, _; split; [reflexivity|]; split; [reflexivity|]; split; [reflexivity|]; split; [reflexivity|]; split; [first [apply quot_lo; nums; nia|nums; nia]|first [apply quot_int; nums; nia|nums; nia]].
Ltac safel := safeb; crunch; cks; fin.
Ltac safed := safeb; crunch; repeat (progress (cks; nz)); fin.
Ltac soundb M E1 E2 := intros s g lo hi Cs W Pg; pose proof (within_bounds sz s g x Cs W); pose proof (within_bounds sz s g y Cs W); pose proof (within_bounds sz s g z Cs W); pose proof (within_bounds sz s g t Cs W); specialize (M g Pg); crunch; intros E1 E2.
Ltac ends E := try (apply ck_inv in E; destruct E as [-> _]); try (injection E as <-).
Ltac soundl M := let E1 := fresh "E1" in let E2 := fresh "E2" in soundb M E1 E2; invk; ends E1; ends E2; nia.
Ltac soundd M := let E1 := fresh "E1" in let E2 := fresh "E2" in soundb M E1 E2; repeat (progress (invk; nzh E1; nzh E2)); ends E1; ends E2; split; first [nia|apply div_up; nia|apply div_dn; nia].
Lemma x_eq_y_good : (forall g, P g -> g x = g y) -> forall b, In b x_eq_y -> good sz nv s0 P ([AV x; AV y], b).
Proof. intros M b' I. inlist; [goodi x|goodi y]; [safel|soundl M|safel|soundl M]. Qed.
Lemma x_plus_c_eq_y_good : (forall g, P g -> g x + c = g y) -> forall b, In b x_plus_c_eq_y -> good sz nv s0 P ([AV x; AI c; AV y], b).
Proof. intros M b' I. inlist; [goodi x|goodi y]; [safel|soundl M|safel|soundl M]. Qed.
Lemma x_lt_y_good : (forall g, P g -> g x < g y) -> forall b, In b x_lt_y -> good sz nv s0 P ([AV x; AV y], b).
Proof. intros M b' I. inlist; [goodi x|goodi y]; [safel|soundl M|safel|soundl M]. Qed.
Lemma x_lte_c_good : (forall g, P g -> g x <= c) -> forall b, In b x_lte_c -> good sz nv s0 P ([AV x; AI c], b).
Proof. intros M b' I. inlist; goodi x; [safel|soundl M]. Qed.
Lemma x_lte_y_good : (forall g, P g -> g x <= g y) -> forall b, In b x_lte_y -> good sz nv s0 P ([AV x; AV y], b).
Proof. intros M b' I. inlist; [goodi x|goodi y]; [safel|soundl M|safel|soundl M]. Qed.
Lemma x_plus_c_lte_y_good : (forall g, P g -> g x + c <= g y) -> forall b, In b x_plus_c_lte_y -> good sz nv s0 P ([AV x; AI c; AV y], b).
Proof. intros M b' I. inlist; [goodi x|goodi y]; [safel|soundl M|safel|soundl M]. Qed.
Lemma x_gte_c_good : (forall g, P g -> g x >= c) -> forall b, In b x_gte_c -> good sz nv s0 P ([AV x; AI c], b).
Proof. intros M b' I. inlist; goodi x; [safel|soundl M]. Qed.
Lemma x_plus_c_gte_y_good : (forall g, P g -> g x + c >= g y) -> forall b, In b x_plus_c_gte_y -> good sz nv s0 P ([AV x; AI c; AV y], b).
Proof. intros M b' I. inlist; [goodi x|goodi y]; [safel|soundl M|safel|soundl M]. Qed.
Lemma x_plus_y_eq_z_good : (forall g, P g -> g x + g y = g z) -> forall b, In b x_plus_y_eq_z -> good sz nv s0 P ([AV x; AV y; AV z], b).
Proof. intros M b' I. inlist; [goodi x|goodi y|goodi z]; [safel|soundl M|safel|soundl M|safel|soundl M]. Qed.
Lemma x_plus_y_plus_z_eq_t_good : (forall g, P g -> g x + g y + g z = g t) -> forall b, In b x_plus_y_plus_z_eq_t -> good sz nv s0 P ([AV x; AV y; AV z; AV t], b).
Proof. intros M b' I. inlist; [goodi x|goodi y|goodi z|goodi t]; [safel|soundl M|safel|soundl M|safel|soundl M|safel|soundl M]. Qed.
(** with coefficients: the products must be ints *)
Hypothesis Ha : 1 <= a <= 2 ^ 30.
Hypothesis Hb : 1 <= b <= 2 ^ 30.
Definition fits : Prop := a * rmax (frange (s0 x)) + b * rmax (frange (s0 y)) <= 2 ^ 30.
Lemma ax_eq_y_good : a * rmax (frange (s0 x)) <= 2 ^ 30 -> (forall g, P g -> a * g x = g y) -> forall b, In b ax_eq_y -> good sz nv s0 P ([AI a; AV x; AV y], b).
Proof. clear Hb. intros Fi M b' I. inlist; [goodi x|goodi y]; [safed|soundd M|safed|soundd M]. Qed.
Lemma ax_plus_y_eq_z_good : a * rmax (frange (s0 x)) <= 2 ^ 30 -> (forall g, P g -> a * g x + g y = g z) -> forall b, In b ax_plus_y_eq_z -> good sz nv s0 P ([AI a; AV x; AV y; AV z], b).
Proof. clear Hb. intros Fi M b' I. inlist; [goodi x|goodi y|goodi z]; [safed|soundd M|safed|soundd M|safed|soundd M]. Qed.
Lemma ax_plus_by_eq_z_good : fits -> (forall g, P g -> a * g x + b * g y = g z) -> forall b', In b' ax_plus_by_eq_z -> good sz nv s0 P ([AI a; AV x; AI b; AV y; AV z], b').
Proof. unfold fits. intros Fi M b' I. inlist; [goodi x|goodi y|goodi z]; [safed|soundd M|safed|soundd M|safed|soundd M]. Qed.
Lemma ax_plus_y_plus_z_eq_t_good : a * rmax (frange (s0 x)) <= 2 ^ 30 -> (forall g, P g -> a * g x + g y + g z = g t) -> forall b, In b ax_plus_y_plus_z_eq_t -> good sz nv s0 P ([AI a; AV x; AV y; AV z; AV t], b).
Proof. clear Hb. intros Fi M b' I. inlist; [goodi x|goodi y|goodi z|goodi t]; [safed|soundd M|safed|soundd M|safed|soundd M|safed|soundd M]. Qed.
Lemma ax_plus_by_plus_z_eq_t_good : fits -> (forall g, P g -> a * g x + b * g y + g z = g t) -> forall b', In b' ax_plus_by_plus_z_eq_t -> good sz nv s0 P ([AI a; AV x; AI b; AV y; AV z; AV t], b').
Proof. unfold fits. intros Fi M b' I. inlist; [goodi x|goodi y|goodi z|goodi t]; [safed|soundd M|safed|soundd M|safed|soundd M|safed|soundd M]. Qed.
Lemma xy_eq_z_good : rmax (frange (s0 x)) * rmax (frange (s0 y)) <= 2 ^ 30 -> (forall g, P g -> g x * g y = g z) -> forall b, In b xy_eq_z -> good sz nv s0 P ([AV x; AV y; AV z], b).
Proof. clear Ha Hb Hc. intros Fi M b' I. inlist; [goodi x|goodi y|goodi z]; [safed|soundd M|safed|soundd M|safed|soundd M]. Qed.
Lemma zero_power_n_eq_y_good : (forall g, P g -> (g x = 0 /\ g y = 1) \/ (g x <> 0 /\ g y = 0)) -> forall b, In b zero_power_n_eq_y -> good sz nv s0 P ([AV x; AV y], b).
Proof. clear Ha Hb Hc. intros M b' I. inlist; [goodi y|goodi x]; [safed|soundd M|safed|soundd M]. Qed.
Lemma quot_rem_good : a * rmax (frange (s0 z)) + a <= 2 ^ 30 -> (forall g, P g -> g x = g z * a + g y /\ g y < a) -> forall b, In b quot_rem_x_a_r_eq_z -> good sz nv s0 P ([AV x; AI a; AV y; AV z], b).
Proof. clear Hb Hc. intros Fi M b' I. inlist; [goodi y|goodi z|goodi y|goodi x|goodi x]; [safed|soundd M|safed|soundd M|safed|soundd M|safed|soundd M|safed|soundd M]. Qed.
End V.
End C.
