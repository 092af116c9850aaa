(** The chains of one predicate. *)
Require Import ZArith List Bool Lia Arith Sorted.
Require Import Verif.Heap_Model Verif.Dyn_Model Verif.Dyn_Chain.
Import ListNotations.
Open Scope Z_scope.

Definition no (f : nat -> option clause) (x : nat) : Z := match f x with Some c => c_no c | None => 0 end.
Definition live (f : nat -> option clause) (x : nat) : bool := match f x with Some c => c_stamp c =? ALIVE | None => true end.
Definition has_key (f : nat -> option clause) (k : chain) (x : nat) : bool :=
  match f x with Some c => match c_key c with Some k' => chain_eqb k k' | None => false end | None => false end.
Definition sub (f : nat -> option clause) (k : chain) (l : list nat) : list nat := match k with Seq => l | _ => filter (has_key f k) l end.
Definition attr (c : clause) := (c_dyn c, c_key c, c_no c, c_arg c, c_data c).
Definition lt_no (f : nat -> option clause) (x y : nat) : Prop := no f x < no f y.
Definition srt (f : nat -> option clause) (l : list nat) : Prop := StronglySorted (lt_no f) l.

(** ** Sorted lists *)
Lemma srt_app f a b : srt f (a ++ b) <-> srt f a /\ srt f b /\ forall x y, In x a -> In y b -> no f x < no f y.
Proof.
  unfold srt. induction a as [|z a IH]; cbn.
  - split; [intros H; split; [constructor|split; [exact H|intros ? ? []]]|intros [_ [H _]]; exact H].
  - split.
    + intros H. inversion H as [|? ? H1 H2]; subst. apply IH in H1. destruct H1 as [A [B C]]. rewrite Forall_app in H2. destruct H2 as [D E]. split; [constructor; auto|]. split; [exact B|]. intros x y [<-|Hx] Hy; [rewrite Forall_forall in E; now apply E|auto].
    + intros [A [B C]]. inversion A as [|? ? A1 A2]; subst. constructor; [apply IH; split; [exact A1|split; [exact B|intros x y Hx Hy; apply C; auto]]|]. apply Forall_app. split; [exact A2|]. rewrite Forall_forall. intros y Hy. apply C; auto.
Qed.
Lemma srt_cons f x l : srt f (x :: l) <-> srt f l /\ forall y, In y l -> no f x < no f y.
Proof.
  split; [intros H; inversion H; subst; split; [assumption|now rewrite Forall_forall in *]|]. intros [A B]. constructor; [exact A|]. now rewrite Forall_forall.
Qed.
Lemma srt_nodup f l : srt f l -> NoDup l.
Proof.
  induction l as [|x l IH]; [constructor|]. rewrite srt_cons. intros [A B]. constructor; [|auto]. intros H. apply B in H. lia.
Qed.
Lemma srt_filter f p l : srt f l -> srt f (filter p l).
Proof.
  induction l as [|x l IH]; [auto|]. rewrite srt_cons. intros [A B]. cbn. destruct (p x); [|auto]. apply srt_cons. split; [auto|]. intros y Hy. apply filter_In in Hy. apply B, Hy.
Qed.
Lemma srt_sub f k l : srt f l -> srt f (sub f k l).
Proof. destruct k; cbn; auto using srt_filter. Qed.
Lemma srt_ext f g l : (forall x, In x l -> no f x = no g x) -> srt f l -> srt g l.
Proof.
  induction l as [|x l IH]; [constructor|]. intros E. rewrite !srt_cons. intros [A B]. split; [apply IH; [intros y Hy; apply E; now right|exact A]|]. intros y Hy. rewrite <- !E; [now apply B|now right|now left].
Qed.
Lemma srt_unique f l : forall m, srt f l -> srt f m -> (forall x, In x l <-> In x m) -> l = m.
Proof.
  induction l as [|x l IH]; intros m A B E.
  - destruct m as [|y m]; [reflexivity|]. destruct (proj2 (E y) (or_introl eq_refl)).
  - destruct m as [|y m]; [destruct (proj1 (E x) (or_introl eq_refl))|]. apply srt_cons in A, B. destruct A as [A1 A2], B as [B1 B2].
    assert (x = y). { destruct (proj1 (E x) (or_introl eq_refl)) as [->|Hx]; [reflexivity|]. destruct (proj2 (E y) (or_introl eq_refl)) as [->|Hy]; [reflexivity|]. apply B2 in Hx. apply A2 in Hy. lia. } subst y.
    f_equal. apply IH; auto. intros z. split; intros Hz.
    + destruct (proj1 (E z) (or_intror Hz)) as [<-|H]; [apply A2 in Hz; lia|exact H].
    + destruct (proj2 (E z) (or_intror Hz)) as [<-|H]; [apply B2 in Hz; lia|exact H].
Qed.
Lemma sub_in f k l x : In x (sub f k l) -> In x l.
Proof. destruct k; cbn; auto; intros H; apply filter_In in H; apply H. Qed.
Lemma sub_key f k l x : k <> Seq -> In x (sub f k l) -> has_key f k x = true.
Proof. intros N. destruct k; cbn; [now elim N|..]; intros H; apply filter_In in H; apply H. Qed.
Lemma sub_app f k a b : sub f k (a ++ b) = sub f k a ++ sub f k b.
Proof. destruct k; cbn; auto; apply filter_app. Qed.
Lemma filter_ext_in' {A} (p q : A -> bool) l : (forall x, In x l -> p x = q x) -> filter p l = filter q l.
Proof. induction l as [|x l IH]; [auto|]. intros E. cbn. rewrite (E x) by now left. rewrite IH by (intros; apply E; now right). reflexivity. Qed.
Lemma sub_ext f g k l : (forall x, In x l -> has_key f k x = has_key g k x) -> sub f k l = sub g k l.
Proof. destruct k; cbn; auto; apply filter_ext_in'. Qed.

(** ** One chain *)
Definition scan_ok (f : nat -> option clause) (h : hdr) (l : list nat) : Prop :=
  exists pre suf, l = pre ++ suf /\ h_scan h = nxt suf None /\ (forall x, In x pre -> live f x = false) /\ (suf = [] -> pre = []).
(** while the erased clauses are being removed *)
Definition scan_gc (f : nat -> option clause) (h : hdr) (l : list nat) : Prop :=
  h_scan h = nxt l None \/ exists x m, l = x :: m /\ live f x = false.
Lemma scan_weak f h l : scan_ok f h l -> scan_gc f h l.
Proof.
  intros [pre [suf [-> [A [B C]]]]]. destruct pre as [|x pre]; [left; exact A|]. right. exists x, (pre ++ suf). split; [reflexivity|]. apply B. now left.
Qed.
Lemma scan_strong f h l : (forall x, In x l -> live f x = true) -> scan_gc f h l -> scan_ok f h l.
Proof.
  intros H [A|[x [m [-> B]]]]; [exists [], l; repeat split; auto; now intros|]. rewrite H in B by now left. discriminate.
Qed.
Definition chk (P : (nat -> option clause) -> hdr -> list nat -> Prop) (f : nat -> option clause) (D : dynp) (k : chain) (l : list nat) : Prop :=
  match d_hd D k with Some h => chain_ok (cf f k) h l /\ P f h l | None => in_htbl k = true /\ l = [] end.
Definition ext_ok (P : (nat -> option clause) -> hdr -> list nat -> Prop) : Prop :=
  forall f g h l, (forall x, In x l -> live g x = live f x) -> P f h l -> P g h l.
Lemma scan_ok_ext : ext_ok scan_ok.
Proof.
  intros f g h l E [pre [suf [-> [A [B C]]]]]. exists pre, suf. repeat split; auto. intros x Hx. rewrite E by (apply in_or_app; now left). auto.
Qed.
Lemma scan_gc_ext : ext_ok scan_gc.
Proof.
  intros f g h l E [A|[x [m [-> B]]]]; [now left|]. right. exists x, m. split; [reflexivity|]. rewrite E by now left. exact B.
Qed.
Lemma chk_ext P f g D D' k l : ext_ok P -> d_hd D' k = d_hd D k -> (forall x, In x l -> cf g k x = cf f k x) -> (forall x, In x l -> live g x = live f x) -> chk P f D k l -> chk P g D' k l.
Proof.
  intros EP E C Lv. unfold chk. rewrite E. destruct (d_hd D k) as [h|]; [|auto]. intros [A B]. split; [|now apply (EP f)]. apply (chain_ext (cf f k)); [|exact A]. intros x Hx. symmetry. now apply C.
Qed.

(** ** One predicate *)
Record dok (P : (nat -> option clause) -> hdr -> list nat -> Prop) (f : nat -> option clause) (d : nat) (D : dynp) (l : list nat) : Prop := Dok {
  k_cl : forall x, In x l -> exists c, f x = Some c /\ c_dyn c = d /\ count_a D < c_no c < count_z D /\ (c_stamp c = ALIVE \/ 0 <= c_stamp c <= curr_stamp D) /\ c_key c = Index_From_First_Arg (c_arg c);
  k_srt : srt f l;
  k_seq : d_hd D Seq <> None;
  k_ch : forall k, chk P f D k (sub f k l) }.

Lemma recell_attr k c c' : recell k c c' -> attr c' = attr c /\ c_stamp c' = c_stamp c /\ c_nexte c' = c_nexte c /\ c_file c' = c_file c.
Proof. unfold recell. intros ->. destruct k; repeat split. Qed.
Definition is_seq (k : chain) : bool := match k with Seq => true | _ => false end.
Lemma recell_other k k' c c' : recell k c c' -> is_seq k <> is_seq k' -> cell_of k' c' = cell_of k' c.
Proof. unfold recell. intros -> N. destruct k, k'; cbn in *; try reflexivity; now elim N. Qed.
Lemma attr_key c c' : attr c' = attr c -> c_key c' = c_key c.
Proof. unfold attr. congruence. Qed.
Lemma attr_no c c' : attr c' = attr c -> c_no c' = c_no c.
Proof. unfold attr. congruence. Qed.
Lemma attr_dyn c c' : attr c' = attr c -> c_dyn c' = c_dyn c.
Proof. unfold attr. congruence. Qed.
Lemma attr_arg c c' : attr c' = attr c -> c_arg c' = c_arg c.
Proof. unfold attr. congruence. Qed.
Lemma attr_data c c' : attr c' = attr c -> c_data c' = c_data c.
Proof. unfold attr. congruence. Qed.
(** the same clause as far as the database is concerned *)
Definition same1 (f g : nat -> option clause) (x : nat) : Prop := exists c c', f x = Some c /\ g x = Some c' /\ attr c' = attr c /\ c_stamp c' = c_stamp c.
Lemma same1_no f g x : same1 f g x -> no g x = no f x.
Proof. intros [c [c' [A [B [C _]]]]]. unfold no. rewrite A, B. now apply attr_no. Qed.
Lemma same1_key f g k x : same1 f g x -> has_key g k x = has_key f k x.
Proof. intros [c [c' [A [B [C _]]]]]. unfold has_key. rewrite A, B. now rewrite (attr_key c c'). Qed.
Lemma same1_live f g x : same1 f g x -> live g x = live f x.
Proof. intros [c [c' [A [B [_ C]]]]]. unfold live. now rewrite A, B, C. Qed.
Lemma same1_refl f x c : f x = Some c -> same1 f f x.
Proof. intros H. exists c, c. auto. Qed.
Lemma same1_trans f g h x : same1 f g x -> same1 g h x -> same1 f h x.
Proof. intros [c [c' [A [B [C D]]]]] [c1 [c2 [E [F [G H]]]]]. rewrite B in E. injection E as <-. exists c, c2. repeat split; auto; congruence. Qed.

Lemma dok_ext P f g d D D' l : ext_ok P -> (forall x, In x l -> g x = f x) -> (forall k, d_hd D' k = d_hd D k) -> count_a D' = count_a D -> count_z D' = count_z D -> curr_stamp D <= curr_stamp D' ->
  dok P f d D l -> dok P g d D' l.
Proof.
  intros EP E Hh Ha Hz Hs [A B C K]. constructor.
  - intros x Hx. destruct (A x Hx) as [c [H1 [H2 [H3 [H4 H5]]]]]. exists c. rewrite E, Ha, Hz by auto. repeat split; auto; try apply H3. destruct H4 as [H4|H4]; [now left|right; lia].
  - apply (srt_ext f); [|exact B]. intros x Hx. unfold no. now rewrite E.
  - now rewrite Hh.
  - intros k. replace (sub g k l) with (sub f k l) by (apply sub_ext; intros x Hx; unfold has_key; now rewrite E).
    apply (chk_ext P f g D D'); auto; intros x Hx; apply sub_in in Hx; unfold cf, live; now rewrite E.
Qed.
Lemma dok_weak f d D l : dok scan_ok f d D l -> dok scan_gc f d D l.
Proof.
  intros [A B C K]. constructor; auto. intros k. specialize (K k). unfold chk in *. destruct (d_hd D k); [|auto]. destruct K. split; [assumption|now apply scan_weak].
Qed.
Lemma dok_strong f d D l : (forall x, In x l -> live f x = true) -> dok scan_gc f d D l -> dok scan_ok f d D l.
Proof.
  intros H [A B C K]. constructor; auto. intros k. specialize (K k). unfold chk in *. destruct (d_hd D k); [|auto]. destruct K. split; [assumption|]. apply scan_strong; [|assumption]. intros x Hx. apply sub_in in Hx. auto.
Qed.
