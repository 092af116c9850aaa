(** C38: assignments to global variables and backtracking.  C39: global arrays.

    [history s]: [s] is reached from the start by assignments, readings and returns to choice
    points, in any order, for any variables and any sizes, under the conditions of [ok_op]
    (Gvar_Spec.v): the indexes are integers, an array contains no erroneous array, and an
    array which extends another one, or replaces it until backtracking, is not smaller.  Each
    of these conditions is needed: see the [_refuted] theorems. *)
Require Import ZArith List Bool Arith Lia Permutation.
Require Import Verif.Heap_Model Verif.Gvar_Model Verif.Gvar_Spec Verif.Gvar_Tree Verif.Gvar_Free Verif.Gvar_Build Verif.Gvar_Grow Verif.Gvar_Inv Verif.Gvar_Steps Verif.Gvar_Pops Verif.Gvar_Exec Verif.Gvar_Ops Verif.Gvar_Proofs.
Import ListNotations.
Open Scope nat_scope.

(** * C39: memory *)
(** no operation accesses memory outside the arrays, freed or not initialized, or loops *)
Theorem C39_safe : forall s o, history s -> ok_op s o -> exists s', exec o s = Ret s'.
Proof.
  intros s o H OK. destruct (history_inv s H) as (O & IN). destruct (exec_ok o s O IN OK) as (s' & O' & E & _). eauto.
Qed.
(** all variables have a value *)
Theorem C39_values : forall s a, history s -> exists v, value_of s a = Some v.
Proof. intros s a H. destruct (history_inv s H) as (O & IN). apply (value_some s O a IN). Qed.

(** an assignment gives the element its new value, and changes nothing else *)
Theorem C39_assign : forall s a p x (bt cp : bool) v, history s -> value_of s a = Some v -> wf_src x -> fits bt s a p x ->
  exists s', G_Assign (elem a p) x bt cp s = Ret (match snd (vwalk p v) with Some _ => AOk s' | None => AErr s' end) /\
    value_of s' a = Some (vresult bt p x v) /\ forall a', a' <> a -> value_of s' a' = value_of s a'.
Proof.
  intros s a p x bt cp v H EV W F. destruct (history_inv s H) as (O & IN).
  destruct (assign_ok x bt cp a p s O v IN EV (or_introl (conj W F))) as (res & s' & O' & -> & R1 & M & V & _).
  exists s'. split; [|split; [apply V; exact W|intros a' N; apply (moved_value a s s' O O' a' IN M N)]].
  rewrite R1. destruct (snd (vwalk p v)); [|reflexivity].
  destruct x as [w|w|op n init|op [|y ys]|]; try reflexivity; cbn in W; [destruct (Z.ltb_spec 0 n); [reflexivity|lia]|destruct W; congruence|destruct W].
Qed.
(** an error leaves the values; only an automatic array may be larger *)
Theorem C39_error : forall s a p x (bt cp : bool) v, history s -> value_of s a = Some v -> bad_src x ->
  exists s', G_Assign (elem a p) x bt cp s = Ret (AErr s') /\
    value_of s' a = Some (fst (vwalk p v)) /\ forall a', a' <> a -> value_of s' a' = value_of s a'.
Proof.
  intros s a p x bt cp v H EV B. destruct (history_inv s H) as (O & IN).
  destruct (assign_ok x bt cp a p s O v IN EV (or_intror B)) as (res & s' & O' & -> & R1 & M & _ & V & _).
  exists s'. split; [|split; [apply V; exact B|intros a' N; apply (moved_value a s s' O O' a' IN M N)]].
  rewrite R1. destruct (snd (vwalk p v)); [|reflexivity].
  destruct x as [w|w|op n init|op [|y ys]|]; cbn in B; try contradiction; try reflexivity. destruct (Z.ltb_spec 0 n); [lia|reflexivity].
Qed.
(** a reading gives the value of the element *)
Theorem C39_read : forall s a p v, history s -> value_of s a = Some v ->
  exists s', G_Read (elem a p) s = Ret (match snd (vwalk p v) with Some q => option_map show (vget q (fst (vwalk p v))) | None => None end, s') /\
    (match snd (vwalk p v) with Some q => vget q (fst (vwalk p v)) <> None | None => True end) /\
    value_of s' a = Some (fst (vwalk p v)) /\ forall a', a' <> a -> value_of s' a' = value_of s a'.
Proof.
  intros s a p v H EV. destruct (history_inv s H) as (O & IN). destruct (read_moved a p s O v IN EV) as (s' & O' & E & M & V & _ & Q & _).
  exists s'. split; [exact E|]. split; [exact Q|]. split; [exact V|]. intros a' N. apply (moved_value a s s' O O' a' IN M N).
Qed.
Theorem C39_size : forall s a p v, history s -> value_of s a = Some v ->
  exists s', G_Array_Size (elem a p) s =
    Ret (match snd (vwalk p v) with
         | Some q => match vget q (fst (vwalk p v)) with Some (AArr l _) => Some (length l) | _ => None end
         | None => None
         end, s').
Proof.
  intros s a p v H EV. destruct (history_inv s H) as (O & IN).
  destruct (target_ok a p s O IN) as (res & s1 & b & c & h & c' & R & E & IN1 & F1 & F2 & F3 & F4 & F5 & F6 & _).
  rewrite EV in F4. injection F4 as ->. unfold G_Array_Size. rewrite E. cbn [bind]. exists s1.
  destruct (snd (vwalk p (valT c))) as [q|]; [|subst res; reflexivity]. destruct F6 as (L2 & c2 & h2 & -> & EG).
  destruct (INV_elt s1 _ R (0 :: q) L2 c2 h2 IN1 EG) as ((lo & A) & _). rewrite (rd_ok _ _ _ (a_cell _ _ _ _ _ A) (cof_junk c2)). cbn [bind e_c].
  destruct (root_cons b c' h q L2 c2 h2 c2 h2 EG) as (c3 & h3 & _ & VG & _). rewrite <- F5, VG.
  destruct c2 as [w|bb w|bb l d]; cbn [cof valT]; [reflexivity|reflexivity|]. rewrite valL_len. reflexivity.
Qed.

(** growing an automatic array keeps the elements *)
Lemma room_keeps : forall l d i l' j, room l d i = Some l' -> j < length l -> nth_error l' j = nth_error l j.
Proof.
  intros l d i l' j E L. unfold room in E. destruct (i <? 0)%Z; [discriminate E|]. destruct (i <? Z.of_nat (length l))%Z; [injection E as <-; reflexivity|].
  destruct d as [x|]; [|discriminate E]. destruct (2 ^ 20 <? i)%Z; [discriminate E|]. injection E as <-. apply nth_error_app1. exact L.
Qed.
Lemma walk_keeps : forall p v q w, vget q v = Some (AWord w) -> vget q (fst (vwalk p v)) = Some (AWord w).
Proof.
  induction p as [|i p IH]; intros v q w E; [exact E|]. cbn [vwalk]. destruct v as [w'|l d]; [exact E|].
  destruct (room l d i) as [l'|] eqn:ER; [|exact E]. destruct (nth_error l' (Z.to_nat i)) as [x|] eqn:EN; [|exact E].
  specialize (IH x). destruct (vwalk p x) as [x' q']. cbn [fst] in *. destruct q as [|j q]; [discriminate E|]. cbn [vget] in *.
  destruct (nth_error l j) as [y|] eqn:EJ; [|discriminate E]. assert (LJ : j < length l) by (apply nth_error_Some; congruence).
  assert (LI : Z.to_nat i < length l') by (apply nth_error_Some; congruence). rewrite set_nth_nth by exact LI.
  pose proof (room_keeps l d i l' j ER LJ) as Q. destruct (Nat.eqb_spec j (Z.to_nat i)) as [->|N].
  - rewrite Q, EJ in EN. injection EN as ->. apply IH. exact E.
  - rewrite Q, EJ. exact E.
Qed.
Theorem C39_growth : forall s s' a p v v' q w, history s -> value_of s a = Some v -> vget q v = Some (AWord w) ->
  exec (Oread (elem a p)) s = Ret s' -> value_of s' a = Some v' -> vget q v' = Some (AWord w).
Proof.
  intros s s' a p v v' q w H EV EG E EV'. destruct (C39_read s a p v H EV) as (s1 & E1 & _ & V1 & _). cbn [exec] in E. rewrite E1 in E. cbn [bind snd] in E. injection E as <-.
  rewrite V1 in EV'. injection EV' as <-. apply walk_keeps. exact EG.
Qed.
(** an extended array keeps its elements *)
Lemma vget_vset : forall q r x v y, vget q v = Some y -> vget (q ++ r) (vset q x v) = vget r x.
Proof.
  induction q as [|i q IH]; intros r x v y E; [reflexivity|]. destruct v as [w|l d]; [discriminate E|]. cbn [app vget vset] in *.
  destruct (nth_error l i) as [z|] eqn:EN; [|discriminate E]. cbn [vget].
  rewrite set_nth_nth by (apply nth_error_Some; congruence). rewrite Nat.eqb_refl. apply (IH r x z y E).
Qed.
Theorem C39_extend : forall s s' a p x (bt cp : bool) v v' q l d i, history s -> value_of s a = Some v -> wf_src x -> fits bt s a p x ->
  src_op x = Some G_ARRAY_EXTEND -> snd (vwalk p v) = Some q -> vget q (fst (vwalk p v)) = Some (AArr l d) -> i < length l ->
  G_Assign (elem a p) x bt cp s = Ret (AOk s') -> value_of s' a = Some v' ->
  vget (q ++ [i]) v' = nth_error l i /\ exists l', vget q v' = Some (AArr l' d) /\ length l' = src_size x.
Proof.
  intros s s' a p x bt cp v v' q l d i H EV W F OP EQ EG LI E EV'.
  assert (SZ : length l <= src_size x).
  { pose proof (F v q _ EV EQ EG) as Q. unfold size_ok in Q. rewrite OP in Q. apply Q. right. reflexivity. }
  destruct (C39_assign s a p x bt cp v H EV W F) as (s1 & E1 & V1 & _). rewrite EQ in E1. rewrite E1 in E. injection E as ->.
  rewrite V1 in EV'. injection EV' as <-. unfold vresult. destruct (vwalk p v) as [v1 q1]. cbn [fst snd] in *. subst q1. rewrite EG.
  assert (AX : exists r, vassign bt x (AArr l d) = AArr (l ++ r) d /\ length (l ++ r) = src_size x).
  { destruct x as [w|w|op n init|op ys|]; try discriminate OP; injection OP as ->; cbn [vassign arr_asg src_size] in *;
      eexists; (split; [reflexivity|]); rewrite app_length, skipn_length; rewrite ?repeat_length, ?map_length; lia. }
  destruct AX as (r & AX & LR). rewrite AX. split.
  - rewrite (vget_vset q [i] _ v1 _ EG). cbn [vget]. rewrite nth_error_app1 by exact LI. destruct (nth_error l i); reflexivity.
  - exists (l ++ r). split; [|exact LR]. pose proof (vget_vset q [] (AArr (l ++ r) d) v1 _ EG) as Q. rewrite app_nil_r in Q. exact Q.
Qed.

(** * C38: backtracking *)
(** what is assigned by g_assignb/2 or g_link/2 since the trail had n records is undone when it
    has n records again *)
Theorem C38_restored : forall a s s1, history s -> between a (length (tr s)) s s1 ->
  exists s2, exec (Oback (length (tr s))) s1 = Ret s2 /\ tr s2 = tr s /\ value_of s2 a = value_of s a.
Proof. exact restored. Qed.
(** what is assigned by g_assign/2 survives, and the earlier g_assignb/2 and g_link/2 of this
    variable are cancelled *)
Theorem C38_survives : forall a x s s1 s2, history s -> wf_src x -> src_op x <> Some G_ARRAY_EXTEND ->
  exec (Oassign (elem a []) x) s = Ret s1 -> without a s1 s2 -> value_of s2 a = Some (vsrc x).
Proof. exact survives. Qed.

(** * Examples *)
Definition zero : gsrc := SConst (GInt 0).
Definition num (n : Z) : gsrc := SConst (GInt n).
Definition st (l : list gop) : gst := match execs l start with Ret s => s | _ => start end.
(** a = [1,[2,3]] with default 0 (automatic), b = the term 7, then g_assignb(a(1), 4) *)
Definition ops0 : list gop :=
  [Oassign (elem 1 []) (SArrL G_ARRAY_AUTO [num 1; SArrL G_ARRAY [num 2; num 3]]); Oassign (elem 2 []) (STerm (GTerm 7)); Oassignb (elem 1 [1%Z]) (num 4)].
Ltac fits_tac := let E1 := fresh in let E2 := fresh in let E3 := fresh in
  intros ? ? ? E1 E2 E3; vm_compute in E1; injection E1 as <-; vm_compute in E2; injection E2 as <-; vm_compute in E3; injection E3 as <-; cbv; try exact I; intros; lia.
Ltac hist_tac o s := apply (h_step s o); [|first [apply ok_assign; left|apply ok_assignb; left|apply ok_link; left|apply ok_read|apply ok_back]; try (split; [cbn; repeat split; try discriminate; try lia|fits_tac])|vm_compute; reflexivity].
Lemma hist0 : history (st ops0).
Proof.
  hist_tac (Oassignb (elem 1 [1%Z]) (num 4)) (st [Oassign (elem 1 []) (SArrL G_ARRAY_AUTO [num 1; SArrL G_ARRAY [num 2; num 3]]); Oassign (elem 2 []) (STerm (GTerm 7))]). hist_tac (Oassign (elem 2 []) (STerm (GTerm 7))) (st [Oassign (elem 1 []) (SArrL G_ARRAY_AUTO [num 1; SArrL G_ARRAY [num 2; num 3]])]).
  hist_tac (Oassign (elem 1 []) (SArrL G_ARRAY_AUTO [num 1; SArrL G_ARRAY [num 2; num 3]])) start. exact h_start.
Qed.
Definition v0 : av := AArr [AWord (GInt 1); AWord (GInt 4)] (Some (AWord (GInt 0))).
Example C39_values_ex : history (st ops0) /\ value_of (st ops0) 1 = Some v0 /\ value_of (st ops0) 2 = Some (AWord (GTerm 7)) /\ length (tr (st ops0)) = 1.
Proof. split; [exact hist0|]. vm_compute. auto. Qed.
Example C39_safe_ex : history (st ops0) /\ ok_op (st ops0) (Oassign (elem 1 [5%Z]) (SArrN G_ARRAY 3 zero)) /\
  exists s, exec (Oassign (elem 1 [5%Z]) (SArrN G_ARRAY 3 zero)) (st ops0) = Ret s /\
  value_of s 1 = Some (AArr [AWord (GInt 1); AWord (GInt 4); AWord (GInt 0); AWord (GInt 0); AWord (GInt 0); AArr [AWord (GInt 0); AWord (GInt 0); AWord (GInt 0)] None; AWord (GInt 0); AWord (GInt 0)] (Some (AWord (GInt 0)))).
Proof.
  split; [exact hist0|]. split; [apply ok_assign; left; split; [cbn; lia|fits_tac]|]. eexists. split; vm_compute; reflexivity.
Qed.
Example C39_assign_ex : history (st ops0) /\ value_of (st ops0) 1 = Some v0 /\ wf_src (SArrN G_ARRAY_EXTEND 4 (num 9)) /\ fits true (st ops0) 1 [] (SArrN G_ARRAY_EXTEND 4 (num 9)) /\
  vresult true [] (SArrN G_ARRAY_EXTEND 4 (num 9)) v0 = AArr [AWord (GInt 1); AWord (GInt 4); AWord (GInt 9); AWord (GInt 9)] (Some (AWord (GInt 0))).
Proof. split; [exact hist0|]. split; [reflexivity|]. split; [cbn; lia|]. split; [fits_tac|reflexivity]. Qed.
Example C39_error_ex : history (st ops0) /\ value_of (st ops0) 1 = Some v0 /\ bad_src (SArrN G_ARRAY (-1) zero) /\
  exists s, G_Assign (elem 1 [2%Z]) (SArrN G_ARRAY (-1) zero) false true (st ops0) = Ret (AErr s) /\ value_of s 1 = Some (AArr [AWord (GInt 1); AWord (GInt 4); AWord (GInt 0); AWord (GInt 0)] (Some (AWord (GInt 0)))).
Proof. split; [exact hist0|]. split; [reflexivity|]. split; [cbn; lia|]. eexists. split; vm_compute; reflexivity. Qed.
Example C39_read_ex : history (st ops0) /\ value_of (st ops0) 1 = Some v0 /\ vwalk [1%Z] v0 = (v0, Some [1]) /\ vwalk [2 ^ 20 + 1]%Z v0 = (v0, None) /\
  exists s, G_Read (elem 1 []) (st ops0) = Ret (Some (GList [GVal (GInt 1); GVal (GInt 4)]), s).
Proof. split; [exact hist0|]. split; [reflexivity|]. split; [reflexivity|]. split; [reflexivity|]. eexists. vm_compute. reflexivity. Qed.
Example C39_size_ex : history (st ops0) /\ exists s, G_Array_Size (elem 1 []) (st ops0) = Ret (Some 2, s).
Proof. split; [exact hist0|]. eexists. vm_compute. reflexivity. Qed.
Example C39_growth_ex : history (st ops0) /\ value_of (st ops0) 1 = Some v0 /\ vget [1] v0 = Some (AWord (GInt 4)) /\
  exists s v, exec (Oread (elem 1 [3%Z])) (st ops0) = Ret s /\ value_of s 1 = Some v /\ vget [3] v = Some (AWord (GInt 0)).
Proof. split; [exact hist0|]. split; [reflexivity|]. split; [reflexivity|]. eexists. eexists. split; [vm_compute; reflexivity|]. split; vm_compute; reflexivity. Qed.
Example C39_extend_ex : history (st ops0) /\ value_of (st ops0) 1 = Some v0 /\ fits false (st ops0) 1 [] (SArrL G_ARRAY_EXTEND [num 5; num 6; num 7]) /\
  exists s, G_Assign (elem 1 []) (SArrL G_ARRAY_EXTEND [num 5; num 6; num 7]) false true (st ops0) = Ret (AOk s) /\
  value_of s 1 = Some (AArr [AWord (GInt 1); AWord (GInt 4); AWord (GInt 7)] (Some (AWord (GInt 0)))).
Proof. split; [exact hist0|]. split; [reflexivity|]. split; [fits_tac|]. eexists. split; vm_compute; reflexivity. Qed.

(** g_assignb(a(0), [5,6]), g_assign(b, 1), g_link(a(0,1), t), then back *)
Definition ops1 : list gop := [Oassignb (elem 1 [0%Z]) (SArrL G_ARRAY [num 5; num 6]); Oassign (elem 2 []) (num 1); Olink (elem 1 [0; 1]%Z) (STerm (GTerm 3))].
Definition st1 : gst := st (ops0 ++ ops1).
Ltac betw_tac o s := apply (b_step _ _ _ s o); [|first [apply ok_assign; left|apply ok_assignb; left|apply ok_link; left|apply ok_read|apply ok_back]; try (split; [cbn; repeat split; try discriminate; try lia|fits_tac])
  |hnf; first [discriminate|intros _; eexists; vm_compute; reflexivity]|discriminate|vm_compute; reflexivity].
Example C38_restored_ex : history (st ops0) /\ between 1 (length (tr (st ops0))) (st ops0) st1 /\ value_of (st ops0) 1 = Some v0 /\
  value_of st1 1 = Some (AArr [AArr [AWord (GInt 5); AWord (GTerm 3)] None; AWord (GInt 4)] (Some (AWord (GInt 0)))) /\ length (tr st1) = 3.
Proof.
  split; [exact hist0|]. split; [|vm_compute; auto].
  betw_tac (Olink (elem 1 [0; 1]%Z) (STerm (GTerm 3))) (st (ops0 ++ [Oassignb (elem 1 [0%Z]) (SArrL G_ARRAY [num 5; num 6]); Oassign (elem 2 []) (num 1)])).
  betw_tac (Oassign (elem 2 []) (num 1)) (st (ops0 ++ [Oassignb (elem 1 [0%Z]) (SArrL G_ARRAY [num 5; num 6])])).
  betw_tac (Oassignb (elem 1 [0%Z]) (SArrL G_ARRAY [num 5; num 6])) (st ops0). apply b_refl.
Qed.
(** g_assign(a, [8]), then back over the g_assignb *)
Example C38_survives_ex : history (st ops0) /\ src_op (SArrN G_ARRAY 1 (num 8)) <> Some G_ARRAY_EXTEND /\
  without 1 (st (ops0 ++ [Oassign (elem 1 []) (SArrN G_ARRAY 1 (num 8))])) (st (ops0 ++ [Oassign (elem 1 []) (SArrN G_ARRAY 1 (num 8)); Oback 0])) /\
  value_of (st (ops0 ++ [Oassign (elem 1 []) (SArrN G_ARRAY 1 (num 8)); Oback 0])) 1 = Some (AArr [AWord (GInt 8)] None).
Proof.
  split; [exact hist0|]. split; [discriminate|]. split; [|vm_compute; reflexivity].
  apply (w_step _ _ (st (ops0 ++ [Oassign (elem 1 []) (SArrN G_ARRAY 1 (num 8))])) (Oback 0)); [apply w_refl|apply ok_back|discriminate|vm_compute; reflexivity].
Qed.

(** * What does not hold *)
(** g_assign(a, g_array(5,0)), g_assignb(a, g_array(2,0)): 5 elements are copied in a block of 3 *)
Theorem C39_smaller_backtrackable_refuted : exists l, execs l start = UB /\
  l = [Oassign (elem 1 []) (SArrN G_ARRAY 5 zero); Oassignb (elem 1 []) (SArrN G_ARRAY 2 zero)].
Proof. eexists. split; [|reflexivity]. vm_compute. reflexivity. Qed.
(** g_assign(a, g_array(5,0)), g_assign(a, g_array_extend(2,0)): the end mark is read after the block *)
Theorem C39_smaller_extend_refuted : exists l, execs l start = UB /\
  l = [Oassign (elem 1 []) (SArrN G_ARRAY 5 zero); Oassign (elem 1 []) (SArrN G_ARRAY_EXTEND 2 zero)].
Proof. eexists. split; [|reflexivity]. vm_compute. reflexivity. Qed.
(** g_assign(a, g_array_auto(3,5)), g_read(a(a(9)), X): the evaluation of the index enlarges the
    array, whose size was read before *)
Theorem C39_index_refuted : exists l, execs l start = UB /\
  l = [Oassign (elem 1 []) (SArrN G_ARRAY_AUTO 3 (num 5)); Oread (GRef 1 (IRef (elem 1 [9%Z]) INil))].
Proof. eexists. split; [|reflexivity]. vm_compute. reflexivity. Qed.
(** g_assign(a, g_array(2, g_array(0))) raises an error and leaves elements not initialized *)
Theorem C39_nested_error_refuted : exists l, execs l start = UB /\
  l = [Oassign (elem 1 []) (SArrN G_ARRAY 2 (SArrN G_ARRAY 0 zero)); Oread (elem 1 [])].
Proof. eexists. split; [|reflexivity]. vm_compute. reflexivity. Qed.
(** g_assignb(a, g_array(2,0)), g_assign(a, g_array_extend(4,7)): the extension is lost by
    backtracking *)
Theorem C38_extend_refuted : exists s s1 s2, history s /\ wf_src (SArrN G_ARRAY_EXTEND 4 (num 7)) /\
  exec (Oassign (elem 1 []) (SArrN G_ARRAY_EXTEND 4 (num 7))) s = Ret s1 /\ without 1 s1 s2 /\
  value_of s1 1 <> value_of s2 1 /\ value_of s2 1 = Some (AWord (GInt 0)).
Proof.
  exists (st [Oassignb (elem 1 []) (SArrN G_ARRAY 2 zero)]),
    (st [Oassignb (elem 1 []) (SArrN G_ARRAY 2 zero); Oassign (elem 1 []) (SArrN G_ARRAY_EXTEND 4 (num 7))]),
    (st [Oassignb (elem 1 []) (SArrN G_ARRAY 2 zero); Oassign (elem 1 []) (SArrN G_ARRAY_EXTEND 4 (num 7)); Oback 0]).
  split; [hist_tac (Oassignb (elem 1 []) (SArrN G_ARRAY 2 zero)) start; exact h_start|]. split; [cbn; lia|]. split; [vm_compute; reflexivity|]. split.
  - apply (w_step _ _ (st [Oassignb (elem 1 []) (SArrN G_ARRAY 2 zero); Oassign (elem 1 []) (SArrN G_ARRAY_EXTEND 4 (num 7))]) (Oback 0)); [apply w_refl|apply ok_back|discriminate|vm_compute; reflexivity].
  - split; [vm_compute; discriminate|vm_compute; reflexivity].
Qed.
(** g_assign(a, g_array_auto(2,0)), g_assignb(a(5), 1): the array stays larger after backtracking *)
Theorem C38_growth_refuted : exists s s1 s2, history s /\ exec (Oassignb (elem 1 [5%Z]) (num 1)) s = Ret s1 /\ exec (Oback (length (tr s))) s1 = Ret s2 /\
  value_of s 1 = Some (AArr (repeat (AWord (GInt 0)) 2) (Some (AWord (GInt 0)))) /\ value_of s2 1 = Some (AArr (repeat (AWord (GInt 0)) 8) (Some (AWord (GInt 0)))).
Proof.
  exists (st [Oassign (elem 1 []) (SArrN G_ARRAY_AUTO 2 zero)]), (st [Oassign (elem 1 []) (SArrN G_ARRAY_AUTO 2 zero); Oassignb (elem 1 [5%Z]) (num 1)]),
    (st [Oassign (elem 1 []) (SArrN G_ARRAY_AUTO 2 zero); Oassignb (elem 1 [5%Z]) (num 1); Oback 0]).
  split; [hist_tac (Oassign (elem 1 []) (SArrN G_ARRAY_AUTO 2 zero)) start; exact h_start|]. vm_compute. auto.
Qed.

Print Assumptions C39_safe.
Print Assumptions C39_values.
Print Assumptions C39_assign.
Print Assumptions C39_error.
Print Assumptions C39_read.
Print Assumptions C39_size.
Print Assumptions C39_growth.
Print Assumptions C39_extend.
Print Assumptions C38_restored.
Print Assumptions C38_survives.
Print Assumptions C39_smaller_backtrackable_refuted.
Print Assumptions C39_smaller_extend_refuted.
Print Assumptions C39_index_refuted.
Print Assumptions C39_nested_error_refuted.
Print Assumptions C38_extend_refuted.
Print Assumptions C38_growth_refuted.
