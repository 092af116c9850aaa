(** Decision procedures for the hypotheses on histories, used by the examples and the
    counterexamples of Props_Hash.v. *)
Require Import ZArith List Bool Lia.
Require Import Verif.Heap_Model Verif.Hash_Model Verif.Hash_Spec Verif.Hash_Client Verif.Oper_Model Verif.Oper_Proofs.
Import ListNotations.
Open Scope Z_scope.

Definition isNone {A} (o : option A) : bool := match o with None => true | _ => false end.
Lemma isNone_spec {A} (o : option A) : isNone o = true -> o = None. Proof. destruct o; [discriminate|auto]. Qed.
Definition legal_opb (m : hmem) (b : Z) (o : op) : bool :=
  match o with
  | OInsert _ _ _ a => isNone (hnodes m a) && negb (a =? 0)
  | ORealloc size a => isNone (hblocks m a) && (1 <=? size) && (size <=? INT_MAX)
  | OExtend a => isNone (hblocks m a) && match hblocks m b with Some x => bsize x * 2 <=? INT_MAX | None => true end
  | _ => true
  end.
Fixpoint legal_opsb (fuel : nat) (m : hmem) (b : Z) (os : list op) : bool :=
  match os with
  | [] => true
  | o :: os => legal_opb m b o && match run_op fuel m b o with Ret (m, b) => legal_opsb fuel m b os | _ => true end
  end.
Lemma legal_opb_spec m b o : legal_opb m b o = true -> legal_op m b o.
Proof.
  destruct o as [k v r a|k| |size a|a]; cbn [legal_opb legal_op]; auto.
  - intros Q. apply andb_true_iff in Q as [Q1 Q2]. split; [now apply isNone_spec|]. now destruct (Z.eqb_spec a 0).
  - intros Q. apply andb_true_iff in Q as [Q Q3]. apply andb_true_iff in Q as [Q1 Q2]. apply Z.leb_le in Q2, Q3. split; [now apply isNone_spec|auto].
  - intros Q. apply andb_true_iff in Q as [Q1 Q2]. split; [now apply isNone_spec|]. intros x E. rewrite E in Q2. now apply Z.leb_le.
Qed.
Lemma legal_opsb_spec fuel : forall os m b, legal_opsb fuel m b os = true -> legal_ops fuel m b os.
Proof.
  induction os as [|o os IH]; intros m b Q; cbn [legal_opsb legal_ops] in *; auto. apply andb_true_iff in Q as [Q1 Q2].
  split; [now apply legal_opb_spec|]. intros m' b' E. rewrite E in Q2. auto.
Qed.
Definition memz (k : Z) (l : list Z) : bool := existsb (Z.eqb k) l.
Definition scan_opb (f : map_) (seen : list Z) (o : op) : bool :=
  match o with
  | OInsert k _ _ _ => negb (memz k seen) || negb (isNone (f k))
  | ODelete k => memz k seen
  | _ => false
  end.
Lemma memz_spec k l : memz k l = true <-> In k l.
Proof. unfold memz. rewrite existsb_exists. split; [intros [x [I E]]; apply Z.eqb_eq in E; now subst|intros I; exists k; split; [auto|apply Z.eqb_refl]]. Qed.
Lemma scan_opb_spec f seen o : scan_opb f seen o = true -> scan_op f seen o.
Proof.
  destruct o as [k v r a|k| |size a|a]; cbn [scan_opb scan_op]; try discriminate.
  - intros Q. apply orb_true_iff in Q as [Q|Q].
    + left. intros I. apply memz_spec in I. rewrite I in Q. discriminate.
    + right. intros E. rewrite E in Q. discriminate.
  - apply memz_spec.
Qed.
Fixpoint scan_opsb (fuel : nat) (m : hmem) (b : Z) (f : map_) (seen : list Z) (os : list op) : bool :=
  match os with
  | [] => true
  | o :: os => legal_opb m b o && scan_opb f seen o && match run_op fuel m b o with Ret (m, b) => scan_opsb fuel m b (spec_op f o) seen os | _ => true end
  end.
Lemma scan_opsb_spec fuel : forall os m b f seen, scan_opsb fuel m b f seen os = true -> scan_ops fuel m b f seen os.
Proof.
  induction os as [|o os IH]; intros m b f seen Q; cbn [scan_opsb scan_ops] in *; auto. apply andb_true_iff in Q as [Q Q2]. apply andb_true_iff in Q as [Q0 Q1].
  split; [now apply legal_opb_spec|]. split; [now apply scan_opb_spec|]. intros m' b' E. rewrite E in Q2. auto.
Qed.
Fixpoint legal_visitb (n : nat) (fuel : nat) (m : hmem) (b : Z) (f : map_) (seen : list Z) (p : Z) (s : scan) (script : list (list op)) : bool :=
  match n with
  | O => true
  | S n =>
    (p =? 0) ||
    match rd_node m p with
    | Ret nd => scan_opsb fuel m b f (nkey nd :: seen) (hd [] script) &&
        match run_ops fuel m b (hd [] script) with
        | Ret (m', b') => match Next m' s with Ret (p', s') => legal_visitb n fuel m' b (spec_ops f (hd [] script)) (nkey nd :: seen) p' s' (tl script) | _ => true end
        | _ => true
        end
    | _ => true
    end
  end.
Lemma legal_visitb_spec fuel b : forall n m f seen p s script, legal_visitb n fuel m b f seen p s script = true -> legal_visit n fuel m b f seen p s script.
Proof.
  induction n as [|n IH]; intros m f seen p s script Q; cbn [legal_visitb legal_visit] in *; auto. apply orb_true_iff in Q as [Q|Q]; [left; now apply Z.eqb_eq|right].
  intros nd E. rewrite E in Q. apply andb_true_iff in Q as [Q1 Q2]. split; [now apply scan_opsb_spec|].
  intros m' b' p' s' Er En. rewrite Er, En in Q2. auto.
Qed.
Definition legal_oopb (s : ostate) (o : oop) : bool :=
  match o with
  | OAdd atom type _ a1 a2 => (0 <=? atom) && (0 <=? type) && (type <=? 2) && isNone (hblocks (om s) a1) && isNone (hnodes (om s) a2) && negb (a2 =? 0) &&
      match hblocks (om s) (ob s) with Some x => bsize x * 2 <=? INT_MAX | None => true end
  | ODel atom type => (0 <=? atom) && (0 <=? type) && (type <=? 2)
  end.
Fixpoint legal_oopsb (fuel : nat) (s : ostate) (os : list oop) : bool :=
  match os with
  | [] => true
  | o :: os => legal_oopb s o && match op3 fuel s o with Ret s => legal_oopsb fuel s os | _ => true end
  end.
Lemma legal_oopb_spec s o : legal_oopb s o = true -> legal_oop s o.
Proof.
  destruct o as [atom type v a1 a2|atom type]; unfold legal_oopb, legal_oop, oop_range; rewrite !andb_true_iff, ?Z.leb_le.
  - intros [[[[[[A B] C] D] E] F] G]. split; [lia|]. split; [now apply isNone_spec|]. split; [now apply isNone_spec|].
    split; [now destruct (Z.eqb_spec a2 0)|]. intros x Ex. rewrite Ex in G. now apply Z.leb_le.
  - intros [[A B] C]. split; [lia|auto].
Qed.
Lemma legal_oopsb_spec fuel : forall os s, legal_oopsb fuel s os = true -> legal_oops fuel s os.
Proof.
  induction os as [|o os IH]; intros s Q; cbn [legal_oopsb legal_oops] in *; auto. apply andb_true_iff in Q as [Q1 Q2].
  split; [now apply legal_oopb_spec|]. intros s' E. rewrite E in Q2. auto.
Qed.
(** the empty memory *)
Definition empty_mem : hmem := Hmem (fun _ => None) (fun _ => None).
