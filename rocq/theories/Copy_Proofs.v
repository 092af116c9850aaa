Require Import ZArith List Bool Lia PeanoNat.
Require Import Verif.Term_Model Verif.Term_Proofs Verif.Heap_Model Verif.Heap_Proofs Verif.Unify_Model Verif.Unify_Spec Verif.Unify_Proofs.
Require Import Verif.Binding_Model Verif.Copy_Model Verif.Copy_Spec.
Import ListNotations.
Open Scope Z_scope.

(** ** Treat_Vars_Of_Term visits the occurrences from left to right *)
Section Vars.
Context {A : Type}.
Variable fct : A -> addr -> word -> visit A.

Fixpoint fold_visit (x : A) (l : list word) : visit A :=
  match l with
  | [] => Go x
  | u :: l =>
    match fct x (match u with REF a | FDV a => a | _ => 0 end) u with
    | Go x => fold_visit x l
    | r => r
    end
  end.
Lemma fold_visit_app l1 : forall l2 x, fold_visit x (l1 ++ l2) =
  match fold_visit x l1 with Go x => fold_visit x l2 | r => r end.
Proof.
  induction l1 as [|u l1 IH]; intros l2 x; cbn; auto. destruct (fct x _ u); auto.
Qed.

Fixpoint occw (g : bool) (t : term) : list word :=
  match t with
  | TVar a => [REF a]
  | TFdv a => if g then [FDV a] else []
  | TCmp _ ts => flat_map (occw g) ts
  | _ => []
  end.

Lemma Treat_both L m g (W : wf L m) :
  (forall w t, den m w t -> wf_word L m w -> forall x, exists F, forall fuel, (F <= fuel)%nat ->
     Treat_Vars_Of_Term fct g fuel m x w = Ret (fold_visit x (occw g t))) /\
  (forall a ts, den_args m a ts -> ts <> [] -> forall x, exists F, forall fuel, (F <= fuel)%nat ->
     visit_args (Treat_Vars_Of_Term fct g fuel m) (length ts) m x a = Ret (fold_visit x (flat_map (occw g) ts))).
Proof.
  apply (den_both m
    (fun w t _ => wf_word L m w -> forall x, exists F, forall fuel, (F <= fuel)%nat ->
     Treat_Vars_Of_Term fct g fuel m x w = Ret (fold_visit x (occw g t)))
    (fun a ts _ => ts <> [] -> forall x, exists F, forall fuel, (F <= fuel)%nat ->
     visit_args (Treat_Vars_Of_Term fct g fuel m) (length ts) m x a = Ret (fold_visit x (flat_map (occw g) ts)))).
  - intros a E Ww x. destruct (derefs_fun m (REF a) (REF a) (drf_self m a E)) as [F HF].
    exists (S F). intros [|f] Hf; [lia|]. cbn [Treat_Vars_Of_Term]. rewrite HF by lia. cbn.
    destruct (fct x a (REF a)); reflexivity.
  - intros b w t E N D IH Wb x. destruct (IH (wf_cell _ _ W _ _ E) x) as [F H].
    destruct (den_derefs _ _ _ D) as (w' & Dw & _).
    destruct (derefs_fun _ _ _ Dw) as [F1 H1].
    destruct (derefs_fun _ _ _ (drf_step m b w w' E N Dw)) as [F2 H2].
    exists (S (F + F1 + F2)). intros [|f] Lf; [lia|]. specialize (H (S f) ltac:(lia)).
    cbn [Treat_Vars_Of_Term] in *. rewrite H1 in H by lia. rewrite H2 by lia. exact H.
  - intros a Wb x. exists 2%nat. intros [|[|f]] Lf; try lia. cbn. destruct g; auto. cbn.
    destruct (fct x a (FDV a)); reflexivity.
  - intros b d _ Wb x. exists 2%nat. intros [|[|f]] Lf; try lia. reflexivity.
  - intros n Wb x. exists 2%nat. intros [|[|f]] Lf; try lia. reflexivity.
  - intros n Wb x. exists 2%nat. intros [|[|f]] Lf; try lia. reflexivity.
  - intros b t1 t2 D IH Wb x. destruct (IH ltac:(discriminate) x) as [F H].
    exists (S (S F)). intros [|[|f]] Lf; try lia. specialize (H (S f) ltac:(lia)). exact H.
  - intros b f ts E D IH (g' & k & E' & Nk & _) x. destruct ts as [|t ts].
    + exfalso. rewrite E in E'. inversion E'; subst. cbn in Nk. lia.
    + destruct (IH ltac:(discriminate) x) as [F H].
      exists (S (S F)). intros [|[|f']] Lf; try lia. specialize (H (S f') ltac:(lia)).
      cbn [Treat_Vars_Of_Term deref bind]. unfold rd_func. rewrite E. cbn [bind snd]. exact H.
  - congruence.
  - intros b w t ts E D IHw Ds IH _ x. destruct (IHw (wf_cell _ _ W _ _ E) x) as [F H].
    destruct ts as [|t' ts].
    + exists F. intros f Lf. cbn [visit_args length flat_map]. unfold rd_word. rewrite E. cbn [bind].
      rewrite H by lia. now rewrite app_nil_r.
    + change (flat_map (occw g) (t :: t' :: ts)) with (occw g t ++ flat_map (occw g) (t' :: ts)).
      rewrite fold_visit_app. change (length (t :: t' :: ts)) with (S (S (length ts))).
      destruct (fold_visit x (occw g t)) as [y|y|y] eqn:Q.
      * destruct (IH ltac:(discriminate) y) as [F2 H2]. exists (F + F2)%nat. intros f Lf.
        specialize (H2 f ltac:(lia)). change (length (t' :: ts)) with (S (length ts)) in H2.
        cbn [visit_args] in *. unfold rd_word at 1. rewrite E. cbn [bind]. rewrite H by lia. cbn [bind]. exact H2.
      * exists F. intros f Lf. cbn [visit_args]. unfold rd_word at 1. rewrite E. cbn [bind]. rewrite H by lia. reflexivity.
      * exists F. intros f Lf. cbn [visit_args]. unfold rd_word at 1. rewrite E. cbn [bind]. rewrite H by lia. reflexivity.
Qed.
End Vars.

Lemma occw_occs g t : map (fun u => match u with REF a | FDV a => a | _ => 0 end) (occw g t) = occs g t.
Proof.
  induction t as [a|a|d|n|i|f ts IH] using term_ind'; cbn; auto; [destruct g; auto|].
  induction IH as [|t ts H _ IH]; cbn; auto. now rewrite map_app, H, IH.
Qed.

(** ** Collect_Variable *)
Lemma existsb_In x a : existsb (fun b => b =? a) x = true <-> In a x.
Proof.
  rewrite existsb_exists. split.
  - intros (b & I & Q). apply Z.eqb_eq in Q. now subst.
  - intros I. exists a. split; auto. apply Z.eqb_refl.
Qed.
Lemma first_occ_In l r : first_occ l r -> forall a, In a l <-> In a r.
Proof.
  induction 1 as [|l r a H IH I|l r a H IH I]; intros b; [tauto| |]; rewrite !in_app_iff, IH; cbn; intuition; subst; auto.
Qed.
Lemma first_occ_NoDup l r : first_occ l r -> NoDup r.
Proof.
  induction 1; auto; [constructor|]. clear H. induction r as [|b r IH]; cbn; [constructor; auto; constructor|].
  inversion IHfirst_occ; subst. constructor.
  - rewrite in_app_iff. cbn. intros [Q|[Q|[]]]; auto. subst. apply H0. now left.
  - apply IH; auto. intros Q. apply H0. now right.
Qed.

Lemma collect_run lim l : forall l0 x, first_occ l0 x -> (length x <= lim)%nat ->
  match fold_visit (Collect_Variable lim) x l with
  | Go r => first_occ (l0 ++ map (fun u => match u with REF a | FDV a => a | _ => 0 end) l) r /\ (length r <= lim)%nat
  | Stop _ => False
  | Throw r => exists l', NoDup l' /\ length l' = S lim /\
      incl l' (l0 ++ map (fun u => match u with REF a | FDV a => a | _ => 0 end) l)
  end.
Proof.
  induction l as [|u l IH]; intros l0 x Fo Hl; cbn [fold_visit map].
  - rewrite app_nil_r. auto.
  - set (a := match u with REF a | FDV a => a | _ => 0 end). unfold Collect_Variable at 1.
    replace (l0 ++ a :: map (fun u => match u with REF a | FDV a => a | _ => 0 end) l) with
      ((l0 ++ [a]) ++ map (fun u => match u with REF a | FDV a => a | _ => 0 end) l) by now rewrite <- app_assoc.
    destruct (existsb (fun b => b =? a) x) eqn:Q.
    + apply existsb_In in Q. apply IH; auto. now apply fo_old.
    + assert (Na : ~ In a x) by (rewrite <- existsb_In; congruence).
      destruct (Nat.leb_spec lim (length x)).
      * exists (x ++ [a]). assert (Fn := fo_new _ _ _ Fo Na). split; [exact (first_occ_NoDup _ _ Fn)|].
        split; [rewrite app_length; cbn; lia|]. intros b Ib. apply in_or_app. left.
        now apply (first_occ_In _ _ Fn).
      * apply IH; [now apply fo_new|]. rewrite app_length. cbn. lia.
Qed.

(** [first_occ] is a function *)
Lemma first_occ_fun l r1 : first_occ l r1 -> forall r2, first_occ l r2 -> r1 = r2.
Proof.
  induction 1 as [|l r a H IH I|l r a H IH I]; intros r2 H2; inversion H2 as [Q|l' r' a' H' I' Q|l' r' a' H' I' Q];
    try (now symmetry in Q; apply app_eq_nil in Q as [_ Q]); try (now apply app_eq_nil in Q as [_ Q]);
    subst; auto; apply app_inj_tail in Q as [-> ->]; rewrite <- (IH _ H') in *; auto; contradiction.
Qed.
