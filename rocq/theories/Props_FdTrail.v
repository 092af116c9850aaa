(** Theorems about what backtracking restores of the finite domain solver (C31). *)
Require Import ZArith List Bool Lia.
Require Import Verif.Heap_Model Verif.FdTrail_Model Verif.FdTrail_Spec Verif.FdTrail_Proofs Verif.FdTrail_Steps.
Import ListNotations.
Open Scope Z_scope.

(** [backs vs s1 s3]: a choice point is created in the reachable state [s1], anything legal happens, and when
    this choice point is the newest one (it has not been removed or cut), execution backtracks to it *)
Definition backs (vs : nat) (g1 : ghost) (s1 s3 : st) : Prop :=
  reach vs g1 s1 /\ exists s1' g2 s2 c l o, exec vs OCreate s1 = Ret s1' /\ steps vs (gupd g1 s1 OCreate s1', s1') (g2, s2) /\
    snaps g2 = c :: l /\ n_id c = nxt g1 /\ (o = OUpdate \/ o = ODelete) /\ exec vs o s2 = Ret s3.

Lemma back_spec vs g1 s1 s3 : (0 < vs)%nat -> backs vs g1 s1 s3 ->
  cs s3 = cs s1 /\ tr s3 = tr s1 /\ (forall a, a < cs s1 -> ~ vol (objs g1) a -> m s3 a = m s1 a).
Proof.
  intros VS (R & s1' & g2 & s2 & c & l & o & E1 & St & Q & N & O & E3).
  set (gc := gupd g1 s1 OCreate s1') in *. assert (LC : legal vs g1 s1 OCreate) by exact Logic.I.
  assert (I2 : Inv vs g2 s2) by (apply (steps_inv vs VS _ _ St); cbn [fst snd]; apply (step_inv vs VS g1 s1 OCreate s1' (reach_inv vs VS g1 s1 R) LC E1)).
  assert (C : c = Snap (nxt g1) s1 (objs g1)).
  { destruct (steps_snaps vs VS _ _ St) as [_ H]. cbn [fst] in H. destruct (H c) as [J|J]; [rewrite Q; now left| |unfold gc in J; cbn [gupd nxt] in J; lia].
    unfold gc in J. cbn [gupd snaps] in J. destruct J as [J|J]; [symmetry; exact J|]. pose proof (ids vs VS g1 s1 R c J). lia. }
  assert (U : exists s, Update_Choice_Point s2 = Ret s /\ cs s3 = cs s /\ tr s3 = tr s /\ m s3 = m s).
  { destruct O as [->| ->]; cbn [exec] in E3; [exists s3; auto|]. unfold Delete_Choice_Point in E3. destruct (Update_Choice_Point s2) as [s| |]; cbn [bind] in E3; try discriminate. injection E3 as <-. exists s. auto. }
  destruct U as (s & U & -> & -> & ->). destruct (update_spec vs VS g2 s2 s I2 U) as (c' & l' & Q' & T & Cs & _ & _ & _ & M). rewrite Q in Q'. injection Q' as <- <-. rewrite C in *. cbn [n_s n_objs] in *. auto.
Qed.

(** * C31 *)
(** Every word of the constraint stack is restored, except the volatile ones (FdTrail_Spec.vol): the links of
    the propagation queue, the number of constraints of a variable, the variables of constraint loops. *)
Theorem C31_words : forall vs g1 s1 s3, (0 < vs)%nat -> backs vs g1 s1 s3 ->
  cs s3 = cs s1 /\ tr s3 = tr s1 /\ (forall a, a < cs s1 -> ~ vol (objs g1) a -> m s3 a = m s1 a).
Proof. intros vs g1 s1 s3. apply back_spec. Qed.
(** so the value, the domain with its vector, and the constraints of every variable that existed then *)
Theorem C31_domains : forall vs g1 s1 s3 x, (0 < vs)%nat -> backs vs g1 s1 s3 -> In (x, KVar) (objs g1) -> view vs (m s3) x = view vs (m s1) x.
Proof.
  intros vs g1 s1 s3 x VS B J. destruct (back_spec vs g1 s1 s3 VS B) as (_ & _ & M). destruct B as (R & _). destruct (reach_inv vs VS g1 s1 R) as [I _].
  pose proof (inv_wf _ _ _ _ _ _ _ I) as [W1 W2 _].
  assert (OB : forall y k i, In (y, k) (objs g1) -> 0 <= i < size vs k -> (k = KVec \/ (k = KVar /\ i <> 2 /\ i <> 3 /\ i <> 10)) -> m s3 (y + i) = m s1 (y + i)).
  { intros y k i Y Hi Q. destruct (stacked_in vs VS _ _ _ _ W1 Y) as (_ & L & _). apply M; [lia|]. apply (novol vs VS _ _ y k i W1 Y Hi). tauto. }
  assert (XI : forall i, 0 <= i <= 16 -> i <> 2 -> i <> 3 -> i <> 10 -> m s3 (x + i) = m s1 (x + i)) by (intros i Hi N2 N3 N10; apply (OB x KVar i J); [cbn [size]; lia|auto]).
  unfold view. assert (EV : Vec x = x + 8) by (unfold Vec, OFFSET_RANGE; lia). rewrite EV, (XI 8) by lia.
  rewrite (XI 1), (XI 9) by lia. assert (E0 : m s3 x = m s1 x) by (rewrite <- (Z.add_0_r x); apply XI; lia). rewrite E0.
  rewrite (rds_ext vs VS (m s3) (m s1) 5 (x + 4)) by (intros i Hi; replace (x + 4 + i) with (x + (4 + i)) by lia; apply XI; lia).
  rewrite (rds_ext vs VS (m s3) (m s1) 6 (x + 11)) by (intros i Hi; replace (x + 11 + i) with (x + (11 + i)) by lia; apply XI; lia).
  f_equal. f_equal. destruct (Z.eqb_spec (m s1 (x + 8)) 0) as [|N]; [reflexivity|]. destruct (W2 x KVar J (or_introl eq_refl)) as [_ [V|[V _]]]; [contradiction|].
  apply (rds_ext vs VS). intros i Hi. apply (OB _ KVec i V); [cbn [size]; lia|auto].
Qed.
(** nothing that is legal is undefined: there is something to backtrack to, and no choice point is older than what it saved *)
Theorem C31_defined : forall vs g s o, (0 < vs)%nat -> reach vs g s -> legal vs g s o -> exists s', exec vs o s = Ret s' /\ reach vs (gupd g s o s') s'.
Proof.
  intros vs g s o VS R L. assert (E : exists s', exec vs o s = Ret s').
  { destruct o; cbn [exec legal] in *; try (eexists; reflexivity).
    - unfold Update_Choice_Point. destruct (cps s) as [|c r]; [congruence|]. destruct (Untrail _ _ _). eexists; reflexivity.
    - unfold Delete_Choice_Point, Update_Choice_Point. destruct (cps s) as [|c r]; [congruence|]. destruct (Untrail _ _ _). eexists; reflexivity. }
  destruct E as [s' E]. exists s'. split; [exact E|]. destruct R as (g0 & s0 & St & R). exists g0, s0. split; [exact St|]. apply (steps_step vs _ g s o s' R L E).
Qed.
(** the vector of a variable is an object of the constraint stack below its top, that no other variable uses as anything else *)
Theorem C31_vector : forall vs g s x, (0 < vs)%nat -> reach vs g s -> In (x, KVar) (objs g) -> m s (Vec x) = 0 \/ (x < m s (Vec x) /\ m s (Vec x) + Z.of_nat vs <= cs s /\ In (m s (Vec x), KVec) (objs g)).
Proof.
  intros vs g s x VS R J. destruct (reach_inv vs VS g s R) as [I _]. pose proof (inv_wf _ _ _ _ _ _ _ I) as [W1 W2 _].
  replace (Vec x) with (x + 8) by (unfold Vec, OFFSET_RANGE; lia). destruct (W2 x KVar J (or_introl eq_refl)) as [_ [V|[V L]]]; [now left|]. right. destruct (stacked_in vs VS _ _ _ _ W1 V) as (_ & Q & _). cbn [size] in Q. auto.
Qed.

(** ** One copy per choice point *)
(** a range (or the chains) that has been saved is not saved again until STAMP changes *)
Theorem C31_once : forall vs s x, Trail_Range_If_Necessary vs (Trail_Range_If_Necessary vs s x) x = Trail_Range_If_Necessary vs s x /\
  Trail_Chains_If_Necessary (Trail_Chains_If_Necessary s x) x = Trail_Chains_If_Necessary s x.
Proof.
  intros vs s x. split.
  - assert (E : m (Trail_Range_If_Necessary vs s x) (Range_Stamp x) = stamp (Trail_Range_If_Necessary vs s x)).
    { unfold Trail_Range_If_Necessary. destruct (Z.eqb_spec (m s (Range_Stamp x)) (stamp s)) as [E|E]; [exact E|]. match goal with |- context [Is_Sparse ?a ?b] => destruct (Is_Sparse a b) end; apply m_put_same. }
    unfold Trail_Range_If_Necessary at 1. rewrite E, Z.eqb_refl. reflexivity.
  - assert (E : m (Trail_Chains_If_Necessary s x) (Chains_Stamp x) = stamp (Trail_Chains_If_Necessary s x)).
    { unfold Trail_Chains_If_Necessary. destruct (Z.eqb_spec (m s (Chains_Stamp x)) (stamp s)) as [E|E]; [exact E|]. apply m_put_same. }
    unfold Trail_Chains_If_Necessary at 1. rewrite E, Z.eqb_refl. reflexivity.
Qed.
(** STAMP is incremented by a new choice point and never falls below what any saved copy of a live variable was made under *)
Theorem C31_stamp : forall vs g s x, (0 < vs)%nat -> reach vs g s -> In (x, KVar) (objs g) -> m s (Range_Stamp x) <= stamp s /\ m s (Chains_Stamp x) <= stamp s /\ forall c, In c (snaps g) -> stamp (n_s c) < stamp s.
Proof.
  intros vs g s x VS R J. destruct (reach_inv vs VS g s R) as [I _]. pose proof (inv_wf _ _ _ _ _ _ _ I) as [_ W2 W3].
  split; [apply (W2 x KVar J (or_introl eq_refl))|]. split; [apply (W3 x J)|]. intros c C. destruct (inv_good _ _ _ _ _ _ _ c I C) as [G _ _ _ _]. lia.
Qed.

(** ** Examples *)
Definition s0 : st := St (fun _ => 0) 1 0 1 [] [].
(** X in 0..9 and Y in 0..5 (at 1 and 18).  A choice point; X is restricted twice, gets a hole (a vector of two words), then
    another choice point, the vector changes, X gets a constraint and a value.  The second choice point is cut. *)
Definition before : list op := [ONewInterval 0 9; ONewInterval 0 5].
Definition after : list op :=
  [OInterval 1 8 1 8; OInterval 1 7 2 8; OSparse 1 6 0 2 8 [7; 9]; OCreate; ORemove 1 0 3 (Some 3) None; OCFrame 70 71 0 (Some 1); ODep 1 2 80; OInt 1 3; OInterval 18 3 1 3; OCut 1; OInterval 18 2 1 2].
Definition is_var (g : ghost) (x : Z) : bool := existsb (fun p => (fst p =? x) && match snd p with KVar => true | _ => false end) (objs g).
Lemma is_var_ok g x : is_var g x = true -> In (x, KVar) (objs g).
Proof. unfold is_var. rewrite existsb_exists. intros ([y k] & J & E). apply andb_prop in E. destruct E as [E1 E2]. cbn [fst snd] in *. apply Z.eqb_eq in E1. destruct k; try discriminate. now subst. Qed.
Definition legalb (vs : nat) (g : ghost) (s : st) (o : op) : bool :=
  match o with
  | OInt x _ | OInterval x _ _ _ | OCFrame _ _ _ (Some x) => is_var g x
  | OSparse x _ _ _ _ ws => is_var g x && (length ws =? vs)%nat
  | ORemove x i _ _ _ => is_var g x && (0 <=? i) && (i <? Z.of_nat vs)
  | ODep x k _ => is_var g x && (0 <=? k) && (k <=? 4)
  | ONewInterval _ _ | OCreate | OCut _ => true
  | _ => false
  end.
Lemma legalb_ok vs g s o : legalb vs g s o = true -> legal vs g s o.
Proof.
  destruct o as [| | | | | | | | | | | | | ? ? ? [x|]| | | | | | | | |]; cbn [legalb legal]; intros E; try exact Logic.I; try discriminate; repeat (apply andb_prop in E; destruct E as [E ?]); try (apply is_var_ok; exact E).
  - split; [apply is_var_ok, E|]. now apply Nat.eqb_eq.
  - split; [apply is_var_ok, E|]. lia.
  - left. apply is_var_ok, E.
  - left. split; [apply is_var_ok, E|]. lia.
Qed.
Fixpoint trace (vs : nat) (l : list op) (g : ghost) (s : st) : option (ghost * st) :=
  match l with [] => Some (g, s) | o :: l => if legalb vs g s o then match exec vs o s with Ret s' => trace vs l (gupd g s o s') s' | _ => None end else None end.
Lemma trace_steps vs l : forall gs g s g' s', steps vs gs (g, s) -> trace vs l g s = Some (g', s') -> steps vs gs (g', s').
Proof.
  induction l as [|o l IH]; intros gs g s g' s' R E; cbn [trace] in *; [injection E as <- <-; exact R|]. destruct (legalb vs g s o) eqn:L; [|discriminate]. destruct (exec vs o s) as [s1| |] eqn:X; try discriminate.
  apply (IH gs _ _ g' s' (steps_step vs gs g s o s1 R (legalb_ok _ _ _ _ L) X) E).
Qed.
(** [P] holds of the variables and the two states *)
Definition shows (vs : nat) (l1 l2 : list op) (P : ghost -> st -> st -> bool) : bool :=
  match trace vs l1 (Gh [] [] 0) s0 with
  | Some (g1, s1) =>
    match trace vs l2 (gupd g1 s1 OCreate (Create_Choice_Point s1)) (Create_Choice_Point s1) with
    | Some (g2, s2) => match snaps g2 with c :: _ => Nat.eqb (n_id c) (nxt g1) && match Delete_Choice_Point s2 with Ret s3 => P g1 s1 s3 | _ => false end | [] => false end
    | None => false
    end
  | None => false
  end.
Lemma shows_ok vs l1 l2 P : shows vs l1 l2 P = true -> exists g1 s1 s3, backs vs g1 s1 s3 /\ P g1 s1 s3 = true.
Proof.
  unfold shows. intros E. destruct (trace vs l1 (Gh [] [] 0) s0) as [[g1 s1]|] eqn:T1; [|discriminate]. destruct (trace vs l2 _ _) as [[g2 s2]|] eqn:T2; [|discriminate].
  destruct (snaps g2) as [|c l] eqn:Q; [discriminate|]. apply andb_prop in E. destruct E as [N E]. apply Nat.eqb_eq in N. destruct (Delete_Choice_Point s2) as [s3| |] eqn:D; try discriminate.
  exists g1, s1, s3. split; [|exact E]. split.
  - exists (Gh [] [] 0), s0. split; [repeat split; reflexivity|]. apply (trace_steps vs l1 _ _ _ g1 s1 (steps_refl vs _) T1).
  - exists (Create_Choice_Point s1), g2, s2, c, l, ODelete. split; [reflexivity|]. split; [apply (trace_steps vs l2 _ _ _ g2 s2 (steps_refl vs _) T2)|]. auto.
Qed.
(** the state differs before backtracking: X is 3, and Y is in 1..2 *)
Example C31_ex_before : match trace 2 before (Gh [] [] 0) s0 with
  | Some (g1, s1) => match trace 2 after (gupd g1 s1 OCreate (Create_Choice_Point s1)) (Create_Choice_Point s1) with
     | Some (_, s2) => (Min s2 1, Max s2 1, Fd_Variable_Is_Ground s2 1, Max s2 18, length (tr s2)) = (3, 3, true, 2, 7%nat) | None => False end
  | None => False end.
Proof. vm_compute. reflexivity. Qed.
Example C31_ex : exists g1 s1 s3, backs 2 g1 s1 s3 /\ In (1, KVar) (objs g1) /\ In (18, KVar) (objs g1) /\ (Min s3 1, Max s3 1, Fd_Variable_Is_Ground s3 1, Max s3 18) = (0, 9, false, 5).
Proof.
  destruct (shows_ok 2 before after (fun g s1 s3 => is_var g 1 && is_var g 18 && (Min s3 1 =? 0) && (Max s3 1 =? 9) && negb (Fd_Variable_Is_Ground s3 1) && (Max s3 18 =? 5))) as (g1 & s1 & s3 & B & E); [vm_compute; reflexivity|].
  exists g1, s1, s3. split; [exact B|]. repeat (apply andb_prop in E; destruct E as [E ?]). split; [now apply is_var_ok|]. split; [now apply is_var_ok|].
  repeat match goal with H : (_ =? _) = true |- _ => apply Z.eqb_eq in H end. destruct (Fd_Variable_Is_Ground s3 1); [discriminate|]. congruence.
Qed.

(** ** Refuted: every word of a variable is restored *)
(** Pl_Fd_Create_C_Frame increments the number of constraints of its variable without saving it (fd_inst.c:775-776), and
    Pl_Fd_Add_Dependency then saves the incremented number: after backtracking the variable has one constraint too many. *)
Theorem C31_nb_cstr_refuted : exists vs g1 s1 s3 x, (0 < vs)%nat /\ backs vs g1 s1 s3 /\ In (x, KVar) (objs g1) /\ m s3 (Nb_Cstr x) <> m s1 (Nb_Cstr x).
Proof.
  destruct (shows_ok 2 before [OCFrame 70 71 0 (Some 1); ODep 1 2 35] (fun g s1 s3 => is_var g 1 && negb (m s3 (Nb_Cstr 1) =? m s1 (Nb_Cstr 1)))) as (g1 & s1 & s3 & B & E); [vm_compute; reflexivity|].
  apply andb_prop in E. destruct E as [E1 E2]. exists 2%nat, g1, s1, s3, 1. split; [lia|]. split; [exact B|]. split; [now apply is_var_ok|]. intros Q. rewrite Q, Z.eqb_refl in E2. discriminate.
Qed.

Print Assumptions C31_words.
Print Assumptions C31_domains.
Print Assumptions C31_defined.
Print Assumptions C31_vector.
Print Assumptions C31_once.
Print Assumptions C31_stamp.
Print Assumptions C31_nb_cstr_refuted.
