(** Theorems about constraint propagation (C30) and the constraints of fd_math_fd.fd (C32). *)
Require Import ZArith List Bool Lia.
Require Import Verif.Heap_Model Verif.FdRange_Model Verif.FdRange_Spec Verif.FdRange_Proofs Verif.FdTell_Model Verif.FdTell_Spec Verif.FdTell_Proofs Verif.FdProp_Model Verif.FdProp_Spec Verif.FdProp_Proofs Verif.FdProp_Engine Verif.FdProp_Cstr Verif.FdProp_Closed Verif.FdProp_Lin Verif.FdProp_Con Verif.FdProp_Ground Verif.Props_FdRange Verif.Props_FdTell.
Import ListNotations.
Open Scope Z_scope.

(** for the examples: every variable is in 0..n *)
Definition upto (n : Z) (v : nat) : fdv := New_Variable_Interval 0 n.
Lemma upto_cvars n : 0 < n <= IMAX -> cvars 2 (upto n).
Proof. intros H v. split; [apply xi_ok; lia|]. split; [reflexivity|]. split; [cbn -[IMAX]; lia|exact (proj2 H)]. Qed.
(** what a run leaves: the ends of the first [n] domains *)
Definition ends (n : nat) (o : outcome (bool * st)) : option (bool * list (Z * Z)) :=
  match o with Ret (ok, s) => Some (ok, map (fun v => (rmin (frange (store s v)), rmax (frange (store s v)))) (seq 0 n)) | _ => None end.

(** * C30: posting and propagation *)
(** Any constraint whose blocks are [good] (FdProp_Spec: they can be run, and never remove the value of an
    assignment that satisfies [P]).  [posts]: propagation terminates, failure means that there is no solution,
    success keeps every solution, and every block is at its fixpoint; a block whose variable was bound before
    may instead have been at its fixpoint earlier.
    Missing: incomplete domains, negative values, blocks that stop themselves, wait_switch. *)
Theorem C30_post_partial : forall sz junk a G s P nv fuel f l, 64 * Z.of_nat sz <= 2 ^ 28 -> vok sz junk -> around_ok a -> ready sz G s ->
  (forall c, posted ((f, l) :: G) c -> good sz nv (store s) P c) -> (mu nv (store s) < fuel)%nat -> posts sz s P ((f, l) :: G) (post sz junk a fuel s f l).
Proof. intros sz junk a G s P nv fuel f l S J A. now apply post_ok. Qed.
Theorem C30_tell_partial : forall sz junk a G s P nv fuel v k, 64 * Z.of_nat sz <= 2 ^ 28 -> vok sz junk -> around_ok a -> ready sz G s ->
  (forall c, posted G c -> good sz nv (store s) P c) -> (v < nv)%nat -> fine sz (store s v) k -> (forall g, within (store s) g -> P g -> in_tell k (g v)) ->
  (mu nv (store s) < fuel)%nat -> posts sz s P G (tell_post sz junk a fuel s v k).
Proof. intros sz junk a G s P nv fuel v k S J A. now apply tell_post_ok. Qed.
(** Programs that post linear constraints and restrict variables, from a state without constraints. [keeps]:
    they terminate, failure means that there is no solution, success keeps every solution and leaves every
    block of every posted constraint at its fixpoint.  Missing: as above, and numbers that do not [fit]
    (refuted below). *)
Theorem C30_run_partial : forall sz junk a nv fuel s d l, 64 * Z.of_nat sz <= 2 ^ 28 -> vok sz junk -> around_ok a -> cvars sz s ->
  (forall o, In o l -> op_fit sz nv s o) -> (mu nv s < fuel)%nat ->
  exists ok s', run sz junk a fuel (fresh s d) l = Ret (ok, s') /\
  (ok = false -> forall g, within s g -> (forall o, In o l -> says o g) -> False) /\
  (ok = true -> smaller (store s') s /\ (forall g, within s g -> (forall o, In o l -> says o g) -> within (store s') g) /\
    forall k b, In k (posts_of l) -> In b (snd (code k)) -> stable (store s') (fst (code k), b)).
Proof.
  intros sz junk a nv fuel s d l S J A C F Mu. destruct (run_ok sz S junk a J A nv fuel l [] (fresh s d) (fresh_ready sz s d C)) as [ok [s' [E [_ [N K]]]]]; [intros k []|exact F|exact Mu|].
  exists ok, s'. split; [exact E|]. split; [intros Ok g W G; apply (N Ok g W); split; [intros k []|exact G]|]. intros Ok. destruct (K Ok) as [Sm [Ks R]]. split; [exact Sm|]. split; [intros g W G; apply Ks; [exact W|]; split; [intros k []|exact G]|].
  intros k b I Hb. apply (r_st _ _ _ R). exists (snd (code k)). split; [|exact Hb]. cbn [fst]. apply in_map_iff. exists k. split; [now destruct (code k)|]. rewrite app_nil_r. now apply in_rev in I.
Qed.
(** When the variables of the posted constraints are bound, their values are a solution of the constraints. *)
Theorem C30_solution_partial : forall sz junk a nv fuel s d l s' g, 64 * Z.of_nat sz <= 2 ^ 28 -> vok sz junk -> around_ok a -> cvars sz s ->
  (forall o, In o l -> op_fit sz nv s o) -> (mu nv s < fuel)%nat -> run sz junk a fuel (fresh s d) l = Ret (true, s') ->
  (forall k v, In k (posts_of l) -> In v (cvars_of k) -> is_ground (store s' v) = true) -> within (store s') g -> forall k, In k (posts_of l) -> holds k g.
Proof.
  intros sz junk a nv fuel s d l s' g S J A C F Mu E L W k I. destruct (run_ok sz S junk a J A nv fuel l [] (fresh s d) (fresh_ready sz s d C)) as [ok [s2 [E2 [_ [_ K]]]]]; [intros k' []|exact F|exact Mu|].
  rewrite E in E2. injection E2 as <- <-. destruct (K eq_refl) as [Sm [_ R]]. rewrite app_nil_r in R. apply (ready_ground sz (rev (posts_of l)) s'); auto.
  - intros k' I'. apply in_rev in I'. apply (fit_mono sz s); [apply R|exact Sm|]. unfold posts_of in I'. apply in_flat_map in I'. destruct I' as [o [Io Hk]]. specialize (F o Io). destruct o; cbn in Hk; [|destruct Hk]. destruct Hk as [<-|[]]. apply F.
  - intros k' v I'. apply L. now apply in_rev in I'.
  - now apply -> in_rev.
Qed.
(** X + Y = Z, X < Y, 3X = Y in 0..30, then Z in 25..30, X + 13 <> Y, then Y in 20..23 *)
Definition prog := [Post (CSum 0 1 2); Post (CLt 0 1); Post (CMulC 3 0 1); Tell 2 (TInterval 25 30); Post (CPlusNeq 0 13 1); Tell 1 (TInterval 20 23)].
Example C30_ex :
  64 * Z.of_nat 2 <= 2 ^ 28 /\ vok 2 j0 /\ around_ok a0 /\ cvars 2 (upto 30) /\ (forall o, In o prog -> op_fit 2 3 (upto 30) o) /\ (mu 3 (upto 30) < 100)%nat /\
  map (fun n => ends 3 (run 2 j0 a0 100 (fresh (upto 30) 7) (firstn n prog))) [1; 2; 3; 4; 5]%nat =
    [Some (true, [(0, 30); (0, 30); (0, 30)]); Some (true, [(0, 29); (1, 30); (1, 30)]); Some (true, [(1, 9); (3, 27); (4, 30)]); Some (true, [(6, 8); (18, 24); (25, 30)]); Some (true, [(6, 8); (18, 24); (25, 30)])].
Proof.
  split; [lia|]. split; [exact j0_ok|]. split; [exact a0_ok|]. split; [apply upto_cvars; unfold IMAX; lia|]. split; [|split; [vm_compute; lia|vm_compute; reflexivity]].
  intros o I. cbn [prog In] in I. repeat (destruct I as [<-|I]; [|]); try (destruct I); cbn -[vmax IMAX]; unfold below, small_c, is_int, INT_MIN, INT_MAX; cbn -[vmax IMAX]; repeat split; try lia; try (intros; vm_compute; congruence); intros; intuition (subst; lia).
Qed.
(** it ends with X = 7, Y = 21, Z = 28; with X <> 7 there is no solution *)
Example C30_solution_ex :
  ends 3 (run 2 j0 a0 100 (fresh (upto 30) 7) prog) = Some (true, [(7, 7); (21, 21); (28, 28)]) /\
  match run 2 j0 a0 100 (fresh (upto 30) 7) prog with Ret (ok, s) => ok = true /\ map (fun v => is_ground (store s v)) [0; 1; 2]%nat = [true; true; true] | _ => False end /\
  match run 2 j0 a0 100 (fresh (upto 30) 7) (Post (CNeqC 0 7) :: prog) with Ret (ok, s) => ok = false | _ => False end.
Proof. split; [vm_compute; reflexivity|]. split; vm_compute; auto. Qed.

(** * C32: the constraints say no more than what they mean *)
(** [safe]: with these domains or smaller ones the block runs without undefined behaviour; [sound]: it never removes the
    value of an assignment that satisfies the constraint.  Missing: numbers that do not [fit], incomplete domains,
    negative values, the constraints of fd_math_fd.fd with wait_switch or roots and powers. *)
Theorem C32_linear_partial : forall sz s k b, fit sz s k -> In b (snd (code k)) -> safe sz s (fst (code k), b) /\ sound sz (holds k) (fst (code k), b).
Proof.
  intros sz s k b F I. destruct (con_good sz (S (list_max (cvars_of k))) s (holds k) k F) with (b := b) as [H1 [H2 _]]; auto.
  intros v Hv. apply Nat.lt_succ_r. revert v Hv. apply Forall_forall, list_max_le. lia.
Qed.
Theorem C32_mul_partial : forall sz s x y z b, rmax (frange (s x)) * rmax (frange (s y)) <= 2 ^ 30 -> In b xy_eq_z ->
  safe sz s ([AV x; AV y; AV z], b) /\ sound sz (fun g => g x * g y = g z) ([AV x; AV y; AV z], b).
Proof. intros sz s x y z b F I. destruct (xy_eq_z_good sz (S (x + y + z)) s (fun g => g x * g y = g z) x y z x ltac:(lia) ltac:(lia) ltac:(lia) ltac:(lia) F ltac:(auto) b I) as [H1 [H2 _]]. auto. Qed.
Theorem C32_quot_rem_partial : forall sz s x a y z b, 1 <= a <= 2 ^ 30 -> a * rmax (frange (s z)) + a <= 2 ^ 30 -> In b quot_rem_x_a_r_eq_z ->
  safe sz s ([AV x; AI a; AV y; AV z], b) /\ sound sz (fun g => g x = g z * a + g y /\ g y < a) ([AV x; AI a; AV y; AV z], b).
Proof. intros sz s x a y z b A F I. destruct (quot_rem_good sz (S (x + y + z)) s (fun g => g x = g z * a + g y /\ g y < a) x y z x a ltac:(lia) ltac:(lia) ltac:(lia) ltac:(lia) A F ltac:(auto) b I) as [H1 [H2 _]]. auto. Qed.
Theorem C32_zero_power_partial : forall sz s n y b, In b zero_power_n_eq_y ->
  safe sz s ([AV n; AV y], b) /\ sound sz (fun g => g y = 0 ^ g n) ([AV n; AV y], b).
Proof.
  intros sz s n y b I. destruct (zero_power_n_eq_y_good sz (S (n + y)) s (fun g => (g n = 0 /\ g y = 1) \/ (g n <> 0 /\ g y = 0)) n y n n ltac:(lia) ltac:(lia) ltac:(lia) ltac:(lia) ltac:(auto) b I) as [H1 [H2 _]]. split; [exact H1|].
  intros s' g v k C W Pg. apply (H2 s' g v k C W). pose proof (within_bounds sz s' g n C W). destruct (Z.eq_dec (g n) 0) as [E|E]; [left|right]; (split; [exact E|]); rewrite Pg; [now rewrite E|]. apply Z.pow_0_l. lia.
Qed.
(** A block of a constraint whose variable is already bound is not installed; for these constraints that loses nothing. *)
Theorem C32_closed : forall sz s k, fit sz s k -> closed sz s (code k).
Proof. exact con_closed. Qed.
Theorem C32_ground : forall sz s k g, cvars sz s -> fit sz s k -> (forall b, In b (snd (code k)) -> stable s (fst (code k), b)) -> (forall v, In v (cvars_of k) -> is_ground (s v) = true) -> within s g -> holds k g.
Proof. exact con_ground. Qed.
(** 3X + 5Y = Z with X in 0..10, Y in 0..10, Z in 0..30: X is cut to 0..10, Y to 0..6, Z is kept *)
Example C32_ex :
  fit 2 (upto 30) (CLin2 3 0 5 1 2) /\ 30 * 30 <= 2 ^ 30 /\ 7 * 30 + 7 <= 2 ^ 30 /\
  map (fun b => tells (upto 30) ([AI 3; AV 0%nat; AI 5; AV 1%nat; AV 2%nat], b)) ax_plus_by_eq_z = [Ret (Some (TInterval (-49) 10)); Ret (Some (TInterval (-17) 6)); Ret (Some (TInterval 0 240))] /\
  map (fun b => tells (fun v => New_Variable_Interval 4 30) ([AV 0%nat; AV 1%nat; AV 2%nat], b)) xy_eq_z = [Ret (Some (TInterval 1 7)); Ret (Some (TInterval 1 7)); Ret (Some (TInterval 16 900))].
Proof. split; [cbn -[Z.pow]; lia|]. split; [lia|]. split; [lia|]. split; vm_compute; reflexivity. Qed.
(** Outside: the products are computed as C ints.  X * Y = Z in 0..65535 is undefined behaviour, as is
    16 X + 20 Y = Z in 0..fd_max_integer.  (16 X = Y is not: its first block cuts X before the product is computed.) *)
Theorem C32_mul_overflow_refuted : exists s f, cvars 2 s /\ within s f /\ f 0%nat * f 1%nat = f 2%nat /\ post 2 j0 a0 100 (fresh s 7) [AV 0%nat; AV 1%nat; AV 2%nat] xy_eq_z = UB.
Proof.
  exists (upto 65535), (fun _ => 1). split; [apply upto_cvars; unfold IMAX; lia|]. split; [intros v; split; [cbn; lia|reflexivity]|]. split; [reflexivity|vm_compute; reflexivity].
Qed.
Theorem C32_coefficient_overflow_refuted : exists s f, cvars 2 s /\ within s f /\ holds (CLin2 16 0 20 1 2) f /\ run 2 j0 a0 100 (fresh s 7) [Post (CLin2 16 0 20 1 2)] = UB.
Proof.
  exists (upto IMAX), (fun v => match v with O => 1 | 1%nat => 1 | _ => 36 end). split; [apply upto_cvars; unfold IMAX; lia|]. split; [intros v; split; [unfold upto, IMAX; destruct v as [|[|v]]; cbn; lia|reflexivity]|]. split; [reflexivity|vm_compute; reflexivity].
Qed.
Example C32_coefficient_ex : ends 2 (run 2 j0 a0 100 (fresh (upto IMAX) 7) [Post (CMulC 16 0 1)]) = Some (true, [(0, 16777215); (0, 268435440)]).
Proof. vm_compute. reflexivity. Qed.

Print Assumptions C30_post_partial. Print Assumptions C30_tell_partial. Print Assumptions C30_run_partial. Print Assumptions C30_solution_partial. Print Assumptions C32_linear_partial.
Print Assumptions C32_mul_partial. Print Assumptions C32_quot_rem_partial. Print Assumptions C32_zero_power_partial. Print Assumptions C32_closed. Print Assumptions C32_ground.
Print Assumptions C32_mul_overflow_refuted. Print Assumptions C32_coefficient_overflow_refuted.
