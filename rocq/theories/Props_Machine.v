(** Theorems about choice points, the trail, cut and the binding direction
    (C12, C13, C46). *)
Require Import ZArith List Bool Lia.
Require Import Verif.Word_Model Verif.Arith_Spec Verif.Arith_Proofs.
Require Import Verif.Term_Model Verif.Heap_Model Verif.Heap_Proofs.
Require Verif.Unify_Model.
Require Import Verif.Unify_Spec Verif.Unify_Proofs.
Require Import Verif.Binding_Model Verif.Binding_Spec Verif.Binding_Proofs.
Require Import Verif.Machine_Model Verif.Machine_Spec Verif.Machine_Proofs.
Import ListNotations.
Open Scope Z_scope.

(** [reach g s]: [s] is reached from the start by any sequence of operations that respect
    [legal] (Machine_Spec.v); [g] is the bookkeeping: which words are in use ([kd]), the
    environments and the choice points ([cps], newest first). *)

(** every legal operation is executed without undefined behaviour *)
Theorem C12_machine_safe :
  forall X (call : Z -> list Z -> X -> X) G0 LSSA, G0 <= LSSA ->
  forall g s o, reach X call G0 LSSA g s -> legal X call LSSA g s o ->
  exists s', exec X call LSSA s o = Ret s' /\ reach X call G0 LSSA (gupd X LSSA g s o s') s'.
Proof.
  intros X call G0 LSSA P2 g s o R L.
  destruct (exec_inv X call G0 LSSA P2 g s o (reach_inv X call G0 LSSA P2 g s R) L) as (s' & Ex & I).
  exists s'. split; auto. eapply reach_steps; [exact R|]. econstructor; [constructor|]. now constructor.
Qed.

(** C12: a choice point is created in the state [s1].  Anything happens (bindings,
    trailed or not, nested choice points, cuts, backtracking, ...).  When it is again
    the newest choice point ([c_id]), backtracking to it ([OUpdate]: another
    alternative follows, [ODelete]: last alternative) gives every data word in use in
    [s1] the value it had in [s1], and so for the registers, the arguments, the trail
    and the state outside the stacks. *)
Theorem C12_backtracking_restores :
  forall X (call : Z -> list Z -> X -> X) G0 LSSA, G0 <= LSSA ->
  forall g1 s1 alt ar s2 g3 s3 c cs o,
  reach X call G0 LSSA g1 s1 ->
  exec X call LSSA s1 (OCreate X alt ar) = Ret s2 ->
  steps X call LSSA (gupd X LSSA g1 s1 (OCreate X alt ar) s2, s2) (g3, s3) ->
  cps X g3 = c :: cs -> c_id X c = nxt X g1 ->
  (exists alt', o = OUpdate X alt' ar) \/ (o = ODelete X ar /\ cs <> []) ->
  exists s4, exec X call LSSA s3 o = Ret s4 /\
    (forall a, kd X g1 a = Some Data -> mem X s4 a = mem X s1 a) /\
    xs X s4 = xs X s1 /\ H X s4 = H X s1 /\ E X s4 = E X s1 /\ CP X s4 = CP X s1 /\
    CS X s4 = CS X s1 /\ TR X s4 = TR X s1 /\
    (forall i, 0 <= i < Z.of_nat ar -> A X s4 i = A X s1 i).
Proof.
  intros X call G0 LSSA P2 g1 s1 alt ar s2 g3 s3 c cs o R Ex St Ec Ei Ho.
  pose proof (reach_inv X call G0 LSSA P2 g1 s1 R) as I1.
  set (g2 := gupd X LSSA g1 s1 (OCreate X alt ar) s2) in *.
  assert (R2 : reach X call G0 LSSA g2 s2).
  { eapply reach_steps; [exact R|]. econstructor; [constructor|]. apply step_op; [exact I|exact Ex]. }
  pose proof (reach_steps X call G0 LSSA _ _ _ _ R2 St) as R3.
  pose proof (reach_inv X call G0 LSSA P2 _ _ R3) as I3.
  destruct (steps_history X call G0 LSSA _ _ St c) as (c' & In' & Sc).
  { cbn [fst]. rewrite Ec. now left. }
  { cbn [fst]. unfold g2. cbn [gupd nxt]. lia. }
  assert (Ec' : c' = Cp X (nxt X g1) (B X s2) ar alt (mem X s2) (xs X s1)
      (frame_kd (kd X g1) (B X s2) ar) (envs X g1) (H X s1) (E X s1) (CP X s1) (CS X s1) (TR X s1) (A X s1)).
  { cbn [fst] in In'. unfold g2 in In'. cbn [gupd cps] in In'. destruct In' as [<-|In']; auto.
    pose proof (i_ids X call G0 LSSA _ _ I1 c' In'). assert (c_id X c = c_id X c') by (rewrite Sc; reflexivity). lia. }
  assert (Kc : forall a, kd X g1 a = Some Data -> c_kd X c a = Some Data /\ c_mem X c a = mem X s1 a).
  { intros a Ka. destruct (create_keeps X call G0 LSSA g1 s1 alt ar s2 a I1 Ex Ka) as [Q1 Q2].
    rewrite Sc, Ec'. cbn. split; [exact Q2|exact Q1]. }
  assert (Ar : c_ar X c = ar) by (rewrite Sc, Ec'; reflexivity).
  assert (F : c_x X c = xs X s1 /\ c_H X c = H X s1 /\ c_E X c = E X s1 /\ c_CP X c = CP X s1 /\
              c_CS X c = CS X s1 /\ c_tr X c = TR X s1 /\ c_A X c = A X s1).
  { rewrite Sc, Ec'. cbn. auto 10. }
  destruct F as (F1 & F2 & F3 & F4 & F5 & F6 & F7).
  destruct Ho as [[alt' ->]|[-> Ncs]].
  - destruct (Inv_update X call G0 LSSA P2 g3 s3 alt' c cs I3 Ec) as (s4 & E4 & _ & M & A1 & A2 & A3 & _ & _ & A4 & A5 & A6 & A7).
    rewrite Ar in *. exists s4. split; [exact E4|].
    split; [intros a Ka; destruct (Kc a Ka) as [K1 K2]; rewrite M by auto; exact K2|].
    rewrite <- F1, <- F2, <- F3, <- F4, <- F5, <- F6, <- F7. auto 10.
  - destruct cs as [|c2 cs]; [congruence|].
    destruct (Inv_delete X call G0 LSSA g3 s3 c c2 cs I3 Ec) as (s4 & E4 & _ & M & A1 & A2 & A3 & _ & _ & A4 & A5 & A6 & A7).
    rewrite Ar in *. exists s4. split; [exact E4|].
    split; [intros a Ka; destruct (Kc a Ka) as [K1 K2]; rewrite M by auto; exact K2|].
    rewrite <- F1, <- F2, <- F3, <- F4, <- F5, <- F6, <- F7. auto 10.
Qed.

(** C46: cut.  [s1] is the entry of a clause, [B X s1] the choice point current at that
    time (Pl_Get_Current_Choice).  After any execution in which that choice point has
    not been consumed, the cut leaves exactly the choice points that are older than
    [s1], with the one of [s1] as the newest; HB1 is the top of the heap when it was
    created; nothing else changes.  (What backtracking then restores is C12.) *)
Theorem C46_cut :
  forall X (call : Z -> list Z -> X -> X) G0 LSSA, G0 <= LSSA ->
  forall g1 s1 c1 cs1 g3 s3,
  reach X call G0 LSSA g1 s1 -> cps X g1 = c1 :: cs1 ->
  steps X call LSSA (g1, s1) (g3, s3) -> In (c_id X c1) (map (c_id X) (cps X g3)) ->
  exists s4 c cs, exec X call LSSA s3 (OCut X (B X s1)) = Ret s4 /\
    let g4 := gupd X LSSA g3 s3 (OCut X (B X s1)) s4 in
    cps X g4 = c :: cs /\ same_choice X c1 c /\ c_id X c = c_id X c1 /\ B X s4 = B X s1 /\ HB1 X s4 = c_H X c1 /\
    (forall c', In c' (cps X g4) <-> In c' (cps X g3) /\ (c_id X c' < nxt X g1)%nat) /\
    mem X s4 = mem X s3 /\ TR X s4 = TR X s3 /\ H X s4 = H X s3 /\ E X s4 = E X s3 /\ A X s4 = A X s3.
Proof.
  intros X call G0 LSSA P2 g1 s1 c1 cs1 g3 s3 R Ec1 St Ii.
  pose proof (reach_inv X call G0 LSSA P2 g1 s1 R) as I1.
  pose proof (reach_steps X call G0 LSSA _ _ _ _ R St) as R3.
  pose proof (reach_inv X call G0 LSSA P2 _ _ R3) as I3.
  pose proof (reach_ids X call G0 LSSA P2 _ _ R) as D1.
  pose proof (reach_ids X call G0 LSSA P2 _ _ R3) as D3.
  apply in_map_iff in Ii as (c & Ei & Ic).
  assert (L1 : (c_id X c1 < nxt X g1)%nat) by (apply (i_ids X call G0 LSSA _ _ I1); rewrite Ec1; now left).
  destruct (steps_history X call G0 LSSA _ _ St c Ic ltac:(cbn [fst]; lia)) as (c' & In' & Sc). cbn [fst] in In'.
  assert (c' = c1).
  { apply (ids_unique X (cps X g1)); auto; [rewrite Ec1; now left|]. rewrite <- Ei, Sc. reflexivity. }
  subst c'.
  assert (Bp : B X s1 = c_p X c) by (rewrite (i_B X call G0 LSSA _ _ I1), Ec1, Sc; reflexivity).
  assert (Ib : In (B X s1) (map (c_p X) (cps X g3))) by (rewrite Bp; now apply in_map).
  pose proof (Inv_cut X call G0 LSSA g3 s3 (B X s1) I3 Ib) as I4.
  destruct (cps_from_split X _ _ Ib) as (l1 & c2 & l2 & Es & Eb & Ef & _).
  assert (c2 = c).
  { pose proof (i_cps X call G0 LSSA _ _ I3) as Q. eapply (p_unique X call G0 LSSA); [exact Q| |exact Ic|congruence].
    rewrite Es. apply in_or_app. right. now left. }
  subst c2.
  exists (Cut X s3 (B X s1)), c, l2. split; [reflexivity|]. cbn zeta.
  assert (Eg : cps X (gupd X LSSA g3 s3 (OCut X (B X s1)) (Cut X s3 (B X s1))) = c :: l2) by (cbn [gupd cps]; exact Ef).
  split; [exact Eg|]. split; [exact Sc|]. split; [exact Ei|]. split; [reflexivity|]. split.
  { pose proof (i_HB X call G0 LSSA _ _ I4) as Q. rewrite Eg in Q. rewrite Q, Sc. reflexivity. }
  split.
  { intros x. rewrite Eg. rewrite Es in D3 |- *.
    assert (Dn : forall l1, ids_down X (l1 ++ c :: l2) ->
       (forall y, In y l1 -> (c_id X c < c_id X y)%nat) /\ (forall y, In y l2 -> (c_id X y < c_id X c)%nat)).
    { clear. induction l1 as [|y l1 IH]; cbn; [intuition|]. intros [Q1 Q2]. destruct (IH Q2) as [A1 A2]. split; auto.
      intros y' [<-|I]; auto. apply Q1. apply in_or_app. right. now left. }
    destruct (Dn l1 D3) as [Dn1 Dn2]. split.
    - intros I. split; [apply in_or_app; now right|]. destruct I as [<-|I]; [lia|]. apply Dn2 in I. lia.
    - intros [I Lx]. apply in_app_or in I as [I|I]; auto. exfalso.
      assert (I' : In x (cps X g3)) by (rewrite Es; apply in_or_app; now left).
      destruct (steps_history X call G0 LSSA _ _ St x I' ltac:(cbn [fst]; lia)) as (y & Iy & Sy). cbn [fst] in Iy.
      assert (Ey : c_id X y = c_id X x) by (rewrite Sy; reflexivity).
      pose proof (Dn1 x I) as Gx.
      rewrite Ec1 in D1, Iy. cbn [ids_down] in D1. destruct Iy as [<-|Iy]; [lia|]. apply (proj1 D1) in Iy. lia. }
  cbn. auto 10.
Qed.

(** C46: soft cut removes the given choice point and no other, wherever it is in the
    chain; nothing else changes. *)
Theorem C46_soft_cut :
  forall X (call : Z -> list Z -> X -> X) G0 LSSA, G0 <= LSSA ->
  forall g s b, reach X call G0 LSSA g s -> legal X call LSSA g s (OSoftCut X b) ->
  exists s', exec X call LSSA s (OSoftCut X b) = Ret s' /\
    let g' := gupd X LSSA g s (OSoftCut X b) s' in
    (forall c, In c (cps X g') <-> In c (cps X g) /\ c_p X c <> b) /\
    (forall a, kd X g a = Some Data -> mem X s' a = mem X s a) /\
    TR X s' = TR X s /\ xs X s' = xs X s /\ H X s' = H X s /\ E X s' = E X s /\
    (forall c cs, cps X g' = c :: cs -> B X s' = c_p X c /\ HB1 X s' = c_H X c).
Proof.
  intros X call G0 LSSA P2 g s b R (c0 & cs0 & L1 & L2).
  pose proof (reach_inv X call G0 LSSA P2 g s R) as I1.
  destruct (Inv_soft_cut X call G0 LSSA g s b c0 cs0 I1 L1 L2) as (s' & Ex & I' & A1 & A2 & A3 & A4 & A5).
  exists s'. split; [exact Ex|]. cbn zeta. split.
  { intros c. cbn [gupd cps]. pose proof (i_cps X call G0 LSSA _ _ I1) as Q.
    revert Q. generalize (mem X s) (xs X s) (TR X s) (kd X g) (H X s). clear.
    induction (cps X g) as [|c1 cs IH]; intros m x tr k h Q; cbn [cps_without].
    - cbn. tauto.
    - pose proof (cps_sorted X call G0 LSSA _ _ _ _ _ _ _ Q) as So.
      cbn [inv_cps] in Q. destruct Q as (K & Q2 & Q3 & Q4 & Q5 & es & _ & _ & _ & _ & _ & P6).
      specialize (IH _ _ _ _ _ P6).
      destruct (Z.eqb_spec (c_p X c1) b) as [Eb|Nb].
      + split.
        * intros I. split; [now right|]. apply So in I. lia.
        * intros [[<-|I] N]; [congruence|auto].
      + cbn [In]. rewrite IH. split; [intros [<-|I]; tauto|tauto]. }
  split; [auto|]. repeat (split; [assumption|]).
  intros c cs Ec. pose proof (i_B X call G0 LSSA _ _ I') as Q1. pose proof (i_HB X call G0 LSSA _ _ I') as Q2.
  rewrite Ec in Q1, Q2. auto.
Qed.

(** the word in which a choice point is saved: Pl_Get_Current_Choice and
    From_B_To_WamWord, From_WamWord_To_B, wam_inst.h:204-205, wam_inst.c:1289-1306
    (addresses counted in words from LSSA) *)
Definition From_B_To_WamWord (LSSA b : Z) : Z := Tag_INT_ (b - LSSA).
Definition From_WamWord_To_B (LSSA w : Z) : Z := LSSA + UnTag_INT_ w.
Theorem C46_choice_word :
  forall LSSA b, LSSA <= b -> b - LSSA < 2 ^ 60 -> From_WamWord_To_B LSSA (From_B_To_WamWord LSSA b) = b.
Proof.
  intros L b Q1 Q2. unfold From_WamWord_To_B, From_B_To_WamWord. rewrite UnTag_Tag; [lia|].
  apply repr_iff. rewrite P60_val in Q2. lia.
Qed.

(** C12, unification: every changed cell that is older than the newest choice point
    (heap below HB1, local stack below B) is on the trail, once unification returns
    with any result; undoing the new entries gives back all cells that are older. *)
Definition undo_uv (es : list Unify_Model.tentry) (m : Heap_Model.mem) : Heap_Model.mem :=
  fold_left (fun m e => match e with
                        | Unify_Model.TUV a => Unify_Model.store m a (Word (REF a))
                        | _ => m
                        end) es m.
Lemma undo_uv_cases es : forall m a,
  (undo_uv es m a = m a /\ ~ In (Unify_Model.TUV a) es) \/
  (In (Unify_Model.TUV a) es /\ undo_uv es m a = Some (Word (REF a))).
Proof.
  unfold undo_uv. induction es as [|e es IH]; intros m a; cbn [fold_left]; [left; cbn; tauto|].
  destruct e as [b|b c|b cs|f args].
  - destruct (IH (Unify_Model.store m b (Word (REF b))) a) as [[Q N]|[I Q]]; [|right; split; [now right|auto]].
    destruct (Z.eq_dec a b) as [->|Nb].
    + right. split; [now left|]. rewrite Q. apply store_same.
    + left. split; [rewrite Q; now apply store_other|]. intros [E0|I]; [congruence|auto].
  - destruct (IH m a) as [[Q N]|[I Q]]; [left|right; cbn; auto]. split; auto. intros [E0|I]; [discriminate|auto].
  - destruct (IH m a) as [[Q N]|[I Q]]; [left|right; cbn; auto]. split; auto. intros [E0|I]; [discriminate|auto].
  - destruct (IH m a) as [[Q N]|[I Q]]; [left|right; cbn; auto]. split; auto. intros [E0|I]; [discriminate|auto].
Qed.

Theorem C12_unify_trails :
  forall oc fuel c s u v r s', wf (Unify_Model.LSSA c) (Unify_Model.mm s) ->
  wf_word (Unify_Model.LSSA c) (Unify_Model.mm s) u -> wf_word (Unify_Model.LSSA c) (Unify_Model.mm s) v ->
  Unify_Model.Unify oc fuel c s u v = Ret (r, s') ->
  exists new, Unify_Model.tr s' = new ++ Unify_Model.tr s /\
    (forall a, a < Unify_Model.HB1 c \/ Unify_Model.LSSA c <= a < Unify_Model.BB c ->
       Unify_Model.mm s' a <> Unify_Model.mm s a -> In (Unify_Model.TUV a) new) /\
    (forall a, a < Unify_Model.HB1 c \/ Unify_Model.LSSA c <= a < Unify_Model.BB c ->
       undo_uv new (Unify_Model.mm s') a = Unify_Model.mm s a).
Proof.
  intros oc fuel c s u v r s' W Wu Wv Ex.
  destruct (Unify_sound oc c fuel s u v r s' W Wu Wv Ex) as [(_ & _ & (new & T1 & T2 & T3) & _) _].
  assert (N : forall a, a < Unify_Model.HB1 c \/ Unify_Model.LSSA c <= a < Unify_Model.BB c ->
     Unify_Model.Word_Needs_Trailing c a = true).
  { intros a Ha. unfold Unify_Model.Word_Needs_Trailing, Unify_Model.Is_A_Local_Adr.
    rewrite orb_true_iff, andb_true_iff, !Z.ltb_lt, Z.leb_le. lia. }
  exists new. split; [exact T1|]. split.
  - intros a Ha Ne. destruct (T2 a) as [Q|[_ Q]]; [congruence|auto].
  - intros a Ha. destruct (undo_uv_cases new (Unify_Model.mm s') a) as [[Q1 Q2]|[Q1 Q2]]; rewrite ?Q1, ?Q2.
    + destruct (T2 a) as [Q|[_ Q]]; [auto|]. exfalso. auto.
    + destruct (T3 _ Q1) as (b & Eb & Ub & _). injection Eb as <-. now rewrite Ub.
Qed.

(** C13: after a unification, any part of the local stack may be discarded ([lt] is the
    new top): the memory that remains has no pointer into the discarded part (every word
    is well-formed in it) and every remaining word stands for the same tree; every chain
    of references ends. *)
Theorem C13_no_dangling :
  forall oc fuel c s u v r s' lt, wf (Unify_Model.LSSA c) (Unify_Model.mm s) ->
  wf_word (Unify_Model.LSSA c) (Unify_Model.mm s) u -> wf_word (Unify_Model.LSSA c) (Unify_Model.mm s) v ->
  Unify_Model.Unify oc fuel c s u v = Ret (r, s') -> Unify_Model.LSSA c <= lt ->
  let L := Unify_Model.LSSA c in let m' := Unify_Model.mm s' in
  (forall a w, a < lt -> m' a = Some (Word w) -> wf_word L (discard lt m') w) /\
  (forall a b, a < L -> m' a = Some (Word (REF b)) -> b < L) /\
  (forall nu w, wf_word L (discard lt m') w -> same_tree (lab (discard lt m') nu w) (lab m' nu w)) /\
  (forall w, wf_word L (discard lt m') w -> exists w', derefs (discard lt m') w w').
Proof.
  intros oc fuel c s u v r s' lt W Wu Wv Ex Hl L m'.
  destruct (Unify_sound oc c fuel s u v r s' W Wu Wv Ex) as [(W' & _) _].
  assert (Wd := discard_wf L lt m' Hl W').
  split; [intros a w La Ea; apply (wf_cell _ _ Wd a); now rewrite discard_lt|].
  split.
  { intros a b La Ea. destruct (wf_ref _ _ W' _ _ Ea); lia. }
  split; [intros nu w Ww; now apply (discard_lab L)|].
  intros w Ww. exact (derefs_total L _ Wd w Ww).
Qed.

(** C13: an unsafe value put in an argument register before the environment is
    deallocated ([ee]: the previous environment) survives the deallocation and stands
    for the same tree; the memory stays well-formed. *)
Theorem C13_put_unsafe_value :
  forall fuel c ee s w w' s', wf (Unify_Model.LSSA c) (Unify_Model.mm (hm s)) ->
  free_from (Unify_Model.LSSA c) (hH s) (Unify_Model.mm (hm s)) ->
  wf_word (Unify_Model.LSSA c) (Unify_Model.mm (hm s)) w -> Unify_Model.LSSA c <= ee ->
  Put_Unsafe_Value fuel c ee s w = Ret (w', s') ->
  let m' := Unify_Model.mm (hm s') in
  wf (Unify_Model.LSSA c) m' /\ wf_word (Unify_Model.LSSA c) (discard ee m') w' /\
  forall nu, same m' nu w w'.
Proof.
  intros fuel c ee s w w' s' W F Ww Le Ex m'. unfold Put_Unsafe_Value in Ex.
  destruct (deref_ok _ _ w fuel W Ww) as [N|(x & D & Dx & Wx & Hx)]; [rewrite N in Ex; discriminate|].
  rewrite D in Ex. cbn [bind] in Ex. destruct Hx as [(a & -> & Ua)|Nr].
  - destruct (Z.leb_spec ee a) as [Q|Q].
    + destruct (Globalize_Local_Unbound_Var c s a) as [w1 s1] eqn:Eg. injection Ex as <- <-.
      destruct (Globalize_ok c s a w1 s1 W F Ua ltac:(lia) Eg) as (-> & _ & W1 & U1 & U2 & _ & Lb).
      assert (F' := F). destruct F' as [F1 F2].
      split; [exact W1|]. split; [cbn; exists (REF (hH s)); unfold m'; rewrite discard_lt by lia; exact U1|].
      intros nu. unfold m'.
      eapply same_tree_trans; [apply (Lb nu w Ww)|].
      eapply same_tree_trans; [apply (lab_derefs _ _ _ _ Dx)|].
      eapply same_tree_trans; [apply (lab_unbound _ _ _ Ua)|].
      apply (lab_cell _ nu a (REF (hH s)) U2).
    + injection Ex as <- <-. split; [exact W|]. split; [apply discard_wf_word; auto; intros b E0; congruence|].
      intros nu. apply (lab_derefs _ _ _ _ Dx).
  - assert (Ex' : Ret (Unify_Model.Do_Copy_Of_Word x, s) = Ret (w', s')) by (destruct x; auto; congruence).
    injection Ex' as <- <-. split; [exact W|]. split.
    + apply discard_wf_word; auto; [now apply copy_wf|]. intros b E0. apply (copy_not_ref _ _ Nr) in E0. subst x.
      destruct Wx as [_ Q]. lia.
    + intros nu. eapply same_tree_trans; [apply (lab_derefs _ _ _ _ Dx)|]. apply same_tree_sym. eapply copy_lab. exact Wx.
Qed.

(** C13: a value written into a structure on the heap never is a reference to the local
    stack, and stands for the same tree. *)
Theorem C13_unify_local_value :
  forall fuel c s w s', wf (Unify_Model.LSSA c) (Unify_Model.mm (hm s)) ->
  free_from (Unify_Model.LSSA c) (hH s) (Unify_Model.mm (hm s)) ->
  wf_word (Unify_Model.LSSA c) (Unify_Model.mm (hm s)) w ->
  Unify_Local_Value fuel c s w = Ret s' ->
  let m' := Unify_Model.mm (hm s') in
  wf (Unify_Model.LSSA c) m' /\ hH s' = hH s + 1 /\
  exists x, m' (hH s) = Some (Word x) /\ (forall b, x = REF b -> b < Unify_Model.LSSA c) /\
    forall nu, same m' nu w x.
Proof.
  intros fuel c s w s' W F Ww Ex m'. unfold Unify_Local_Value in Ex.
  destruct (deref_ok _ _ w fuel W Ww) as [N|(x & D & Dx & Wx & Hx)]; [rewrite N in Ex; discriminate|].
  rewrite D in Ex. cbn [bind] in Ex.
  assert (Push : forall y, wf_word (Unify_Model.LSSA c) (Unify_Model.mm (hm s)) y ->
      (forall b, y = REF b -> b < Unify_Model.LSSA c) ->
      (forall nu, same_tree (lab (Unify_Model.mm (hm s)) nu y) (lab (Unify_Model.mm (hm s)) nu w)) ->
      Ret (Global_Push s y) = Ret s' ->
      wf (Unify_Model.LSSA c) m' /\ hH s' = hH s + 1 /\
      exists x, m' (hH s) = Some (Word x) /\ (forall b, x = REF b -> b < Unify_Model.LSSA c) /\ forall nu, same m' nu w x).
  { intros y Wy Ly Sy E0. injection E0 as <-. destruct (push_ok c s y W F Wy Ly) as [W1 Lb].
    split; [exact W1|]. split; [reflexivity|]. exists y. split; [apply store_same|]. split; [exact Ly|].
    intros nu. eapply same_tree_trans; [apply (Lb nu w Ww)|].
    eapply same_tree_trans; [apply same_tree_sym, Sy|]. apply same_tree_sym. apply (Lb nu y Wy). }
  destruct Hx as [(a & -> & Ua)|Nr].
  - unfold Unify_Model.Is_A_Local_Adr in Ex. destruct (Z.leb_spec (Unify_Model.LSSA c) a) as [Q|Q].
    + destruct (Globalize_Local_Unbound_Var c s a) as [w1 s1] eqn:Eg. injection Ex as <-. cbn [snd] in *.
      destruct (Globalize_ok c s a w1 s1 W F Ua Q Eg) as (-> & Eh & W1 & U1 & U2 & _ & Lb).
      assert (F' := F). destruct F' as [F1 F2].
      split; [exact W1|]. split; [exact Eh|]. exists (REF (hH s)). split; [exact U1|].
      split; [intros b E0; injection E0 as <-; lia|].
      intros nu. unfold m'.
      eapply same_tree_trans; [apply (Lb nu w Ww)|].
      eapply same_tree_trans; [apply (lab_derefs _ _ _ _ Dx)|].
      eapply same_tree_trans; [apply (lab_unbound _ _ _ Ua)|].
      apply (lab_cell _ nu a (REF (hH s)) U2).
    + apply (Push (REF a)); auto; [intros b E0; congruence|]. intros nu. apply same_tree_sym, (lab_derefs _ _ _ _ Dx).
  - assert (Ex' : Ret (Global_Push s (Unify_Model.Do_Copy_Of_Word x)) = Ret s') by (destruct x; auto; congruence).
    refine (Push _ _ _ _ Ex'); [now apply copy_wf| |].
    + intros b E0. apply (copy_not_ref _ _ Nr) in E0. subst x. apply Wx.
    + intros nu. eapply same_tree_trans; [eapply copy_lab; exact Wx|]. apply same_tree_sym, (lab_derefs _ _ _ _ Dx).
Qed.

(** ** Examples *)
Section Example.
Let call (f : Z) (args : list Z) (x : Z) : Z := nth 0 args x.
Let G0 := 10.
Let LS := 100.
Notation op := (op Z).

Fixpoint run (os : list op) (gs : ghost Z * mstate Z) : ghost Z * mstate Z :=
  match os with
  | [] => gs
  | o :: os => match exec Z call LS (snd gs) o with
               | Ret s' => run os (gupd Z LS (fst gs) (snd gs) o s', s')
               | _ => gs
               end
  end.
Fixpoint all_legal (os : list op) (gs : ghost Z * mstate Z) : Prop :=
  match os with
  | [] => True
  | o :: os => legal Z call LS (fst gs) (snd gs) o /\
               match exec Z call LS (snd gs) o with
               | Ret s' => all_legal os (gupd Z LS (fst gs) (snd gs) o s', s')
               | _ => False
               end
  end.
Lemma run_steps os : forall gs gs0, steps Z call LS gs0 gs -> all_legal os gs -> steps Z call LS gs0 (run os gs).
Proof.
  induction os as [|o os IH]; intros [g s] gs0 R L; cbn [run all_legal] in *; auto.
  destruct L as [L1 L2]. cbn [fst snd] in *. destruct (exec Z call LS s o) as [s'| |] eqn:Ex; [|destruct L2..].
  apply IH; auto. econstructor; [exact R|]. now constructor.
Qed.

Let gs0 : ghost Z * mstate Z :=
  (Gh Z (fun _ => None) [] [] 0, MS Z (fun _ => 0) 1000 10 100 100 0 0 0 0 [] (fun _ => 0)).
(** the first choice point, a heap variable at 10, an environment with a variable at 107 *)
Let before : list op := [OCreate Z 1 0; OPush Z 80; OAllocate Z 1; OInitY Z 0 856; OSetA Z 0 42; OSetA Z 1 43].
(** both are bound, a third variable is made, something outside changes, a nested choice
    point, another assignment, cut back *)
Let between : list op :=
  [OBind Z 10 63; OBind Z 107 80; OPush Z 88; OBind Z 11 63; OTrailFC Z 3 [1000] 2000; OSetA Z 0 5;
   OCreate Z 6 0; OBindOV Z 10 71; OPush Z 1; OCut Z 119; OBindOV Z 107 71].
Let gs1 := run before gs0.
Let gs2 := run [OCreate Z 5 2] gs1.
Let gs3 := run between gs2.

Lemma ex_start : start Z G0 LS (fst gs0) (snd gs0).
Proof. repeat split. Qed.
Ltac solve_legal := repeat first [split | discriminate | reflexivity | lia | (left; reflexivity) | right | exact I].
Lemma ex_before : all_legal before gs0.
Proof. vm_compute. solve_legal. Qed.
Lemma ex_between : all_legal between gs2.
Proof. vm_compute. repeat split; try discriminate; auto. Qed.

Example C12_ex_reach : reach Z call G0 LS (fst gs1) (snd gs1) /\
  steps Z call LS gs2 gs3 /\ map (c_id Z) (cps Z (fst gs3)) = [1%nat; 0%nat] /\ nxt Z (fst gs1) = 1%nat /\
  mem Z (snd gs3) 10 = 71 /\ mem Z (snd gs3) 107 = 71 /\ xs Z (snd gs3) = 2000 /\
  kd Z (fst gs1) 10 = Some Data /\ kd Z (fst gs1) 107 = Some Data.
Proof.
  split.
  { exists (fst gs0), (snd gs0). split; [exact ex_start|].
    assert (Q : steps Z call LS gs0 gs1) by (apply run_steps; [constructor|exact ex_before]).
    rewrite <- !surjective_pairing. exact Q. }
  split; [apply run_steps; [constructor|exact ex_between]|]. vm_compute. auto 20.
Qed.
(** back to the choice point: everything is as before *)
Example C12_ex_restored :
  let s4 := snd (run [OUpdate Z 9 2] gs3) in
  mem Z s4 10 = 80 /\ mem Z s4 107 = 856 /\ xs Z s4 = 1000 /\ H Z s4 = 11 /\ A Z s4 0 = 42 /\ A Z s4 1 = 43 /\
  TR Z s4 = [].
Proof. vm_compute. auto 10. Qed.

(** C46: two choice points above the one at 119; the cut goes back to it *)
Let more : list op := [OCreate Z 6 0; OPush Z 5; OCreate Z 7 1].
Example C46_ex_cut :
  let gs4 := run more gs2 in
  steps Z call LS gs2 gs4 /\ map (c_p Z) (cps Z (fst gs4)) = [134; 126; 119; 107] /\
  let gs5 := run [OCut Z (B Z (snd gs2))] gs4 in
  map (c_p Z) (cps Z (fst gs5)) = [119; 107] /\ B Z (snd gs5) = 119 /\ HB1 Z (snd gs5) = 11.
Proof.
  split; [apply run_steps; [constructor|]; vm_compute; auto|]. vm_compute. auto.
Qed.
(** soft cut of the one at 126 *)
Example C46_ex_soft :
  let gs4 := run more gs2 in
  legal Z call LS (fst gs4) (snd gs4) (OSoftCut Z 126) /\
  let gs5 := run [OSoftCut Z 126] gs4 in
  map (c_p Z) (cps Z (fst gs5)) = [134; 119; 107] /\ B Z (snd gs5) = 134.
Proof.
  split; [|vm_compute; auto]. eexists. eexists. split; [reflexivity|]. reflexivity.
Qed.
Example C46_ex_word : From_WamWord_To_B 1000 (From_B_To_WamWord 1000 1234) = 1234.
Proof. reflexivity. Qed.
End Example.

Section Example13.
Import Unify_Model.
(** a heap variable at 10, local variables at 100 and 120 *)
Let m0 : Heap_Model.mem := fun a =>
  if (a =? 10) || (a =? 100) || (a =? 120) then Some (Word (REF a)) else None.
Let c0 := Cfg 11 110 100.
Lemma ex13_wf : wf 100 m0.
Proof.
  assert (K : forall a c, m0 a = Some c -> (a = 10 \/ a = 100 \/ a = 120) /\ c = Word (REF a)).
  { intros a c. unfold m0. destruct (Z.eqb_spec a 10), (Z.eqb_spec a 100), (Z.eqb_spec a 120); cbn;
    intros Q; try discriminate; injection Q as <-; auto. }
  constructor.
  - intros a c Q. apply K in Q. lia.
  - intros a w Q. assert (Q' := Q). apply K in Q' as [_ Q']. injection Q' as ->. exists (REF a). exact Q.
  - intros a b Q. apply K in Q as [_ Q']. injection Q' as ->. left. lia.
  - intros a w Q. assert (Q' := Q). apply K in Q' as [_ Q']. injection Q' as ->. exists (REF a). now apply drf_self.
Qed.
(** 120 = 100: the younger one points to the older one, then 100 = 10 *)
Example C13_ex :
  wf_word 100 m0 (REF 120) /\ wf_word 100 m0 (REF 100) /\
  (exists s', Unify false 5 c0 (St m0 []) (REF 100) (REF 120) = Ret (USucc, s') /\
     mm s' 120 = Some (Word (REF 100)) /\ mm s' 100 = Some (Word (REF 100)) /\ tr s' = []) /\
  (exists s', Unify false 5 c0 (St m0 []) (REF 10) (REF 100) = Ret (USucc, s') /\
     mm s' 100 = Some (Word (REF 10)) /\ tr s' = [TUV 100]).
Proof.
  split; [exists (REF 120); reflexivity|]. split; [exists (REF 100); reflexivity|].
  split; eexists; (split; [reflexivity|]); vm_compute; auto.
Qed.
Example C13_ex_unsafe :
  let s := Hst (St m0 []) 11 in
  free_from 100 11 m0 /\
  exists w' s', Put_Unsafe_Value 5 c0 110 s (REF 120) = Ret (w', s') /\ w' = REF 11 /\
    mm (hm s') 120 = Some (Word (REF 11)) /\ mm (hm s') 11 = Some (Word (REF 11)).
Proof.
  split.
  - split; [lia|]. intros a Ha. unfold m0.
    destruct (Z.eqb_spec a 10), (Z.eqb_spec a 100), (Z.eqb_spec a 120); try lia; reflexivity.
  - eexists. eexists. split; [reflexivity|]. vm_compute. auto.
Qed.
End Example13.

Print Assumptions C12_machine_safe.
Print Assumptions C12_backtracking_restores.
Print Assumptions C12_unify_trails.
Print Assumptions C13_no_dangling.
Print Assumptions C13_put_unsafe_value.
Print Assumptions C13_unify_local_value.
Print Assumptions C46_cut.
Print Assumptions C46_soft_cut.
Print Assumptions C46_choice_word.
