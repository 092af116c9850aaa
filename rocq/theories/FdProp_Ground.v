(** Once all its variables are bound, a constraint at its fixpoint holds. *)
Require Import ZArith List Bool Lia.
Require Import Verif.Heap_Model Verif.FdRange_Model Verif.FdRange_Spec Verif.FdRange_Proofs Verif.FdTell_Model Verif.FdTell_Spec Verif.FdTell_Proofs Verif.FdProp_Model Verif.FdProp_Spec Verif.FdProp_Proofs Verif.FdProp_Engine Verif.FdProp_Cstr Verif.FdProp_Closed Verif.FdProp_Con.
Import ListNotations.
Open Scope Z_scope.

Section G.
Variable sz : nat.
Lemma ground_is s g v : cvars sz s -> within s g -> is_ground (s v) = true -> rmin (frange (s v)) = g v /\ rmax (frange (s v)) = g v.
Proof. intros C W Gr. pose proof (ground_bounds sz _ (C v) Gr). pose proof (within_bounds sz s g v C W). lia. Qed.
Ltac known s C W L := match type of L with
  | forall v, In v (?u :: ?l) -> _ => pose proof (ground_is s _ u C W (L u (or_introl eq_refl))); 
      let L2 := fresh "L" in assert (L2 : forall v, In v l -> is_ground (s v) = true) by (intros; apply L; now right); clear L; known s C W L2
  | _ => idtac
  end.
(* the last block *)
Ltac ends E := try (apply ck_inv in E; destruct E as [-> _]); try (injection E as <-).
Ltac opens St := match type of St with stable ?s (?f, start ?i (RInterval ?t ?u)) => match goal with C : cvars sz s |- _ => match eval cbn in (nth_error f i) with Some (AV ?v) => 
   let lo := fresh "lo" in let hi := fresh "hi" in let E1 := fresh "E" in let E2 := fresh "E" in
   apply (proj1 (stable_interval sz s f i v t u eq_refl C eq_refl eq_refl)) in St; destruct St as [lo [hi [E1 [E2 St]]]];
   cbn -[ck IMAX Z.mul Z.quot Z.add Z.sub] in E1, E2; invk; ends E1; ends E2 end end end.
Ltac lastb H f l := match l with
  | [?b0] => let St := fresh "St" in assert (St := H b0 ltac:(cbn; tauto)); opens St
  | _ :: ?l' => lastb H f l'
  end.
Ltac use H l := let l := eval cbv beta zeta delta [x_eq_y x_plus_c_eq_y x_lt_y x_lte_y x_lte_c x_gte_c x_plus_c_lte_y x_plus_c_gte_y x_plus_y_eq_z x_plus_y_plus_z_eq_t ax_eq_y ax_plus_y_eq_z ax_plus_by_eq_z ax_plus_y_plus_z_eq_t ax_plus_by_plus_z_eq_t] in l in lastb H tt l.
Lemma con_ground s k g : cvars sz s -> (fit sz s k) -> (forall b, In b (snd (code k)) -> stable s (fst (code k), b)) -> (forall v, In v (cvars_of k) -> is_ground (s v) = true) -> within s g -> holds k g.
Proof.
  intros C F H L W. pose proof L as L'. destruct k; cbn [code fst snd cvars_of flat_map app holds fit] in *; unfold small_c in *; known s C W L.
  - use H x_eq_y. lia.
  - assert (St := H (start 0 (RDom 1)) (or_introl eq_refl)). rewrite (stable_dom s [AV x; AV y] 0 x 1 y eq_refl eq_refl) in St. specialize (St (g x) (W x)). destruct St as [St _]. lia.
  - use H x_plus_c_eq_y. lia.
  - destruct (H (start 0 (RNot (Par 1))) (or_introl eq_refl)) as [v [o [T [E D]]]]. injection T as <-. injection E as <-. apply (D (g x)). apply W.
  - assert (St := H (start 0 (RNot (Val 1))) (or_introl eq_refl)). apply (stable_not sz s _ _ x y _ 0 C (removes_x sz x y)) in St; [|apply L'; cbn; tauto]. intros Q. apply St. replace (rmin (frange (s y)) + 0) with (g x) by lia. apply W.
  - assert (St := H (start 0 (RNot (Sub (Val 2) (Par 1)))) (or_introl eq_refl)). apply (stable_not sz s _ _ x y _ (- c) C (removes_xc sz x y c (proj1 F))) in St; [|apply L'; cbn; tauto]. intros Q. apply St. replace (rmin (frange (s y)) + - c) with (g x) by lia. apply W.
  - use H x_lt_y. lia.
  - use H x_lte_y. lia.
  - use H x_lte_c. lia.
  - use H x_gte_c. lia.
  - use H x_plus_c_lte_y. lia.
  - use H x_plus_c_gte_y. lia.
  - use H x_plus_y_eq_z. lia.
  - use H x_plus_y_plus_z_eq_t. lia.
  - use H ax_eq_y. nia.
  - use H ax_plus_y_eq_z. nia.
  - use H ax_plus_by_eq_z. nia.
  - use H ax_plus_y_plus_z_eq_t. nia.
  - use H ax_plus_by_plus_z_eq_t. nia.
Qed.
Lemma ready_ground K s g : ready sz (map code K) s -> (forall k, In k K -> fit sz (store s) k) -> (forall k v, In k K -> In v (cvars_of k) -> is_ground (store s v) = true) -> within (store s) g -> forall k, In k K -> holds k g.
Proof.
  intros R F L W k I. apply (con_ground (store s)); eauto; [apply R|]. intros b Hb. apply (r_st _ _ _ R). exists (snd (code k)). split; [|exact Hb]. cbn [fst]. apply in_map_iff. exists k. split; [now destruct (code k)|exact I].
Qed.
End G.
