(** Finite memories, for the examples: a decision procedure for [wf]. *)
Require Import ZArith List Bool Lia PeanoNat Floats.SpecFloat.
Require Import Verif.Term_Model Verif.Heap_Model Verif.Heap_Proofs Verif.Unify_Model Verif.Unify_Spec Verif.Unify_Proofs.
Import ListNotations.
Open Scope Z_scope.

Definition mem_of (l : list (addr * cell)) : mem := fun a =>
  match find (fun p => fst p =? a) l with Some p => Some (snd p) | None => None end.

Definition wordb (m : mem) (a : addr) : bool := match m a with Some (Word _) => true | _ => false end.
Definition wf_wordb (L : addr) (m : mem) (w : word) : bool :=
  match w with
  | REF b => wordb m b
  | LST b => (b + 1 <? L) && wordb m b && wordb m (b + 1)
  | STC b => match m b with
    | Some (Func f n) => Nat.leb 1 n && negb ((f =? ATOM_DOT) && Nat.eqb n 2) && (b + Z.of_nat n <? L) &&
        forallb (fun i => wordb m (b + 1 + Z.of_nat i)) (seq 0 n)
    | _ => false
    end
  | FLT b => match m b with Some (Dbl S754_nan) => false | Some (Dbl _) => b <? L | _ => false end
  | FDV b => match m b with Some (Word (FDV c)) => (b =? c) && (b <? L) | _ => false end
  | _ => true
  end.
Definition wfb (L : addr) (l : list (addr * cell)) : bool :=
  let m := mem_of l in
  forallb (fun p => (0 <=? fst p) && match snd p with
    | Word w => wf_wordb L m w && match w with REF b => (b <=? fst p) || (b <? L) | _ => true end &&
        match deref (S (length l)) m w with Ret _ => true | _ => false end
    | _ => true end) l.

Lemma wordb_ok m a : wordb m a = true -> exists w, m a = Some (Word w).
Proof. unfold wordb. destruct (m a) as [[w| |]|]; try discriminate. eauto. Qed.
Lemma wf_wordb_ok L m w : wf_wordb L m w = true -> wf_word L m w.
Proof.
  destruct w as [b|b|b|i|b|b|n]; cbn [wf_wordb wf_word]; auto.
  - apply wordb_ok.
  - intros Q. apply andb_true_iff in Q as [Q Q3]. apply andb_true_iff in Q as [Q1 Q2]. apply Z.ltb_lt in Q1.
    split; auto. intros [|[|i]] Hi; [| |lia]; [rewrite Z.add_0_r|]; now apply wordb_ok.
  - destruct (m b) as [[w|f n|d]|]; try discriminate. intros Q. apply andb_true_iff in Q as [Q Q4].
    apply andb_true_iff in Q as [Q Q3]. apply andb_true_iff in Q as [Q1 Q2]. apply Nat.leb_le in Q1. apply Z.ltb_lt in Q3.
    exists f, n. split; auto. split; auto. split.
    + intros [-> ->]. rewrite Z.eqb_refl in Q2. discriminate.
    + split; auto. intros i Hi. rewrite forallb_forall in Q4. apply wordb_ok, Q4. apply in_seq. lia.
  - destruct (m b) as [[w|f n|d]|]; try discriminate. intros Q. exists d. destruct d; try discriminate;
      apply Z.ltb_lt in Q; (split; [auto|split; [exact I || discriminate || reflexivity|auto]]).
  - destruct (m b) as [[[c|c|c|i|c|c|n]|f n|d]|]; try discriminate. intros Q. apply andb_true_iff in Q as [Q1 Q2].
    apply Z.eqb_eq in Q1. apply Z.ltb_lt in Q2. subst. auto.
Qed.
Lemma mem_of_In l a c : mem_of l a = Some c -> In (a, c) l.
Proof.
  unfold mem_of. destruct (find (fun p => fst p =? a) l) as [[b d]|] eqn:Q; try discriminate. intros E. injection E as <-.
  apply find_some in Q as [I Q]. cbn in *. apply Z.eqb_eq in Q. now subst.
Qed.
Theorem wfb_wf L l : wfb L l = true -> wf L (mem_of l).
Proof.
  unfold wfb. intros Q. rewrite forallb_forall in Q.
  assert (Q' : forall a c, mem_of l a = Some c -> (0 <=? a) && match c with
    | Word w => wf_wordb L (mem_of l) w && match w with REF b => (b <=? a) || (b <? L) | _ => true end &&
        match deref (S (length l)) (mem_of l) w with Ret _ => true | _ => false end
    | _ => true end = true) by (intros a c E; exact (Q _ (mem_of_In l a c E))).
  assert (Qw : forall a w, mem_of l a = Some (Word w) -> wf_wordb L (mem_of l) w = true /\
      match w with REF b => (b <=? a) || (b <? L) | _ => true end = true /\ exists d, deref (S (length l)) (mem_of l) w = Ret d).
  { intros a w E. specialize (Q' a _ E). apply andb_true_iff in Q' as [_ Q']. apply andb_true_iff in Q' as [Q' Q3].
    apply andb_true_iff in Q' as [Q1 Q2]. split; auto. split; auto. destruct (deref _ _ w); try discriminate. eauto. }
  split.
  - intros a c E. specialize (Q' a c E). apply andb_true_iff in Q' as [Q' _]. now apply Z.leb_le.
  - intros a w E. apply wf_wordb_ok. apply (Qw a w E).
  - intros a b E. destruct (Qw a _ E) as (_ & H & _). apply orb_true_iff in H as [H|H]; [left; now apply Z.leb_le|right; now apply Z.ltb_lt].
  - intros a w E. destruct (Qw a _ E) as (_ & _ & d & H). exists d. eapply deref_derefs; eauto.
Qed.

(** the term a word stands for *)
Fixpoint terms_of (one : word -> option term) (m : mem) (n : nat) (a : addr) : option (list term) :=
  match n with
  | O => Some []
  | S n => match m a with
    | Some (Word w) => match one w, terms_of one m n (a + 1) with Some t, Some ts => Some (t :: ts) | _, _ => None end
    | _ => None
    end
  end.
Fixpoint term_of (fuel : nat) (m : mem) (w : word) : option term :=
  match fuel with
  | O => None
  | S f =>
    match w with
    | REF b => match m b with
      | Some (Word v) => if word_eqb v (REF b) then Some (TVar b) else term_of f m v
      | _ => None
      end
    | LST b => match terms_of (term_of f m) m 2 b with Some ts => Some (TCmp ATOM_DOT ts) | None => None end
    | STC b => match m b with
      | Some (Func g n) => match terms_of (term_of f m) m n (b + 1) with Some ts => Some (TCmp g ts) | None => None end
      | _ => None
      end
    | ATM i => Some (TAtm i)
    | INT n => Some (TInt n)
    | FLT b => match m b with Some (Dbl d) => Some (TFlt d) | _ => None end
    | FDV b => Some (TFdv b)
    end
  end.
Lemma term_of_den m : forall f w t, term_of f m w = Some t -> den m w t.
Proof.
  induction f as [|f IH]; intros w t Q; [discriminate|]. cbn [term_of] in Q.
  assert (IA : forall n a ts, terms_of (term_of f m) m n a = Some ts -> length ts = n /\ den_args m a ts).
  { induction n as [|n IHn]; intros a ts Q'; cbn [terms_of] in Q'.
    - injection Q' as <-. split; [auto|constructor].
    - destruct (m a) as [[v| |]|] eqn:E; try discriminate. destruct (term_of f m v) as [u|] eqn:E1; try discriminate.
      destruct (terms_of (term_of f m) m n (a + 1)) as [us|] eqn:E2; try discriminate. injection Q' as <-.
      destruct (IHn _ _ E2) as [Hl Hd]. split; [cbn; now rewrite Hl|]. econstructor; eauto. }
  destruct w as [b|b|b|i|b|b|n]; try (injection Q as <-; constructor).
  - destruct (m b) as [[v| |]|] eqn:E; try discriminate. destruct (word_eqb v (REF b)) eqn:Eq.
    + injection Q as <-. apply word_eqb_eq in Eq. subst. now constructor.
    + apply word_eqb_neq in Eq. eapply den_ref; eauto.
  - destruct (terms_of _ _ _ _) as [ts|] eqn:E; try discriminate. injection Q as <-. destruct (IA _ _ _ E) as [Hl Hd].
    destruct ts as [|t1 [|t2 [|]]]; try discriminate. now constructor.
  - destruct (m b) as [[|g n|]|] eqn:E; try discriminate. destruct (terms_of _ _ _ _) as [ts|] eqn:E1; try discriminate.
    injection Q as <-. destruct (IA _ _ _ E1) as [Hl Hd]. constructor; auto. now rewrite Hl.
  - destruct (m b) as [[|g n|d]|] eqn:E; try discriminate. injection Q as <-. now constructor.
Qed.
