Require Import ZArith List Bool Lia Arith.
Require Import Verif.Heap_Model Verif.Stream_Model Verif.Stream_Spec.
Import ListNotations.
Open Scope Z_scope.

(** ** The clients of a stream *)
Definition exec (g : prop) (o : op) (s : stm) : res * stm :=
  let tr a := match a with Code c => RChar c | Past => RErr end in
  match o with
  | Get => let '(a, s) := Getc g s in (tr a, s)
  | Peek => let '(a, s) := Peekc g s in (tr a, s)
  | Unget c => (RNone, Ungetc s c)
  end.
Fixpoint run (g : prop) (l : list op) (s : stm) : list res * stm :=
  match l with [] => ([], s) | o :: l => let '(r, s) := exec g o s in let '(rs, s) := run g l s in (r :: rs, s) end.
Definition beyond_of (g : prop) (f : list Z) : beyond :=
  match eof_action g with EOF_ERROR => BError | EOF_CODE => BCode | EOF_RESET => BReset (if reposition g then Some f else None) end.

(** ** Rings *)
Definition ring (p : pb) (i : nat) : Z := buff p (if Nat.ltb i (ptr p) then ptr p - 1 - i else ptr p + 7 - i)%nat.
Definition wf (p : pb) : Prop := (ptr p < 8 /\ nb p <= 8)%nat.
Ltac nb_ := repeat match goal with
  | |- context [Nat.eqb ?a ?b] => destruct (Nat.eqb_spec a b)
  | |- context [Nat.ltb ?a ?b] => destruct (Nat.ltb_spec a b)
  | |- context [Nat.leb ?a ?b] => destruct (Nat.leb_spec a b)
  end.
Lemma push_wf p e : wf p -> wf (PB_Push p e).
Proof. intros [A B]. unfold wf, PB_Push, PB_SIZE; cbn [ptr nb]. nb_; lia. Qed.
Lemma push_nb p e : (nb p <= 8)%nat -> nb (PB_Push p e) = Nat.min 8 (S (nb p)).
Proof. intros B. unfold PB_Push, PB_SIZE; cbn [nb]. nb_; lia. Qed.
Lemma push_0 p e : wf p -> ring (PB_Push p e) 0 = e.
Proof. intros [A B]. unfold ring, PB_Push, PB_SIZE; cbn [ptr nb buff]. nb_; try lia; try reflexivity; try (f_equal; lia). Qed.
Lemma push_S p e i : wf p -> (S i < 8)%nat -> ring (PB_Push p e) (S i) = ring p i.
Proof.
  intros [A B] C. unfold ring, PB_Push, PB_SIZE; cbn [ptr nb buff]. destruct (Nat.eqb_spec (ptr p) (8 - 1)) as [E|E].
  - destruct (Nat.ltb_spec (S i) 0); [lia|]. destruct (Nat.ltb_spec i (ptr p)); [|lia].
    destruct (Nat.eqb_spec (0 + 7 - S i) (ptr p)); [lia|]. f_equal; lia.
  - destruct (Nat.ltb_spec (S i) (S (ptr p))), (Nat.ltb_spec i (ptr p)); try lia.
    + destruct (Nat.eqb_spec (S (ptr p) - 1 - S i) (ptr p)); [lia|]. f_equal; lia.
    + destruct (Nat.eqb_spec (S (ptr p) + 7 - S i) (ptr p)); [lia|]. f_equal; lia.
Qed.
Lemma pop_wf p : wf p -> wf (snd (PB_Pop p)).
Proof. intros [A B]. unfold wf, PB_Pop, PB_SIZE; cbn [snd ptr nb]. nb_; lia. Qed.
Lemma pop_nb p : nb (snd (PB_Pop p)) = (nb p - 1)%nat.
Proof. reflexivity. Qed.
Lemma pop_0 p : wf p -> fst (PB_Pop p) = ring p 0.
Proof. intros [A B]. unfold ring, PB_Pop, PB_SIZE; cbn [fst ptr]. nb_; try lia; try (f_equal; lia). Qed.
Lemma pop_S p i : wf p -> (S i < 8)%nat -> ring (snd (PB_Pop p)) i = ring p (S i).
Proof. intros [A B] C. unfold ring, PB_Pop, PB_SIZE; cbn [snd ptr buff]. nb_; try lia; try (f_equal; lia). Qed.
Lemma top_0 p : wf p -> PB_Top p = ring p 0.
Proof. intros [A B]. unfold ring, PB_Top, PB_SIZE. nb_; try lia; try (f_equal; lia). Qed.

(** ** Content *)
Definition view (s : stm) (i : nat) : Z := if Nat.ltb i (nb (pb_char s)) then ring (pb_char s) i else nth (off s + (i - nb (pb_char s))) (file s) (-1).
Record sim (f : list Z) (s : stm) (i : inp) (d : nat) : Prop := Sim {
  sim_file : file s = f; sim_wf : wf (pb_char s); sim_nb : (nb (pb_char s) <= d)%nat;
  sim_view : forall k, view s k = todo i k; sim_past : eof_reached s = past i }.
(** only what is seen matters *)
Lemma uc_file s c : file (Update_Counters s c) = file s. Proof. unfold Update_Counters. destruct (c =? NL); reflexivity. Qed.
Lemma uc_off s c : off (Update_Counters s c) = off s. Proof. unfold Update_Counters. destruct (c =? NL); reflexivity. Qed.
Lemma uc_pbc s c : pb_char (Update_Counters s c) = pb_char s. Proof. unfold Update_Counters. destruct (c =? NL); reflexivity. Qed.
Lemma uc_pbl s c : pb_line_pos (Update_Counters s c) = pb_line_pos s. Proof. unfold Update_Counters. destruct (c =? NL); reflexivity. Qed.
Lemma uc_eof s c : eof_reached (Update_Counters s c) = eof_reached s. Proof. unfold Update_Counters. destruct (c =? NL); reflexivity. Qed.

Lemma nth_past (f : list Z) n k : nth_error f n = None -> nth (n + k) f (-1) = -1.
Proof. intros E. apply nth_error_None in E. apply nth_overflow. lia. Qed.
(** one character is taken off the front *)
Definition take (s : stm) : Z * stm := if PB_Is_Empty (pb_char s) then CALL_GETC s else let '(c, p) := PB_Pop (pb_char s) in (c, with_pbc s p).
Lemma take_ok s : wf (pb_char s) -> let '(c, s') := take s in
  c = view s 0 /\ file s' = file s /\ wf (pb_char s') /\ nb (pb_char s') = (nb (pb_char s) - 1)%nat /\ (forall k, view s' k = view s (S k)) /\
  eof_reached s' = eof_reached s /\ char_count s' = char_count s /\ line_count s' = line_count s /\ line_pos s' = line_pos s /\ pb_line_pos s' = pb_line_pos s.
Proof.
  intros W. unfold take, PB_Is_Empty. destruct (Nat.eqb_spec (nb (pb_char s)) 0) as [E|E].
  - unfold CALL_GETC. destruct (nth_error (file s) (off s)) as [c|] eqn:N.
    + assert (V0 : c = view s 0) by (unfold view; rewrite E; cbn [Nat.ltb Nat.leb]; replace (off s + (0 - 0))%nat with (off s) by lia; symmetry; apply nth_error_nth; exact N).
      cbn [with_off file pb_char eof_reached char_count line_count line_pos pb_line_pos].
      split; [exact V0|]. split; [reflexivity|]. split; [exact W|]. split; [lia|].
      split; [|repeat split].
      intros k. unfold view; cbn [with_off file pb_char off]. rewrite E. cbn [Nat.ltb Nat.leb]. f_equal; lia.
    + assert (V0 : EOF = view s 0) by (unfold view; rewrite E; cbn [Nat.ltb Nat.leb]; rewrite (nth_past _ _ _ N); reflexivity).
      split; [exact V0|]. split; [reflexivity|]. split; [exact W|]. split; [lia|].
      split; [|repeat split].
      intros k. unfold view. rewrite E. cbn [Nat.ltb Nat.leb]. rewrite !(nth_past _ _ _ N). reflexivity.
  - destruct (PB_Pop (pb_char s)) as [c p] eqn:P.
    assert (Pf : c = fst (PB_Pop (pb_char s))) by (rewrite P; reflexivity).
    assert (Ps : p = snd (PB_Pop (pb_char s))) by (rewrite P; reflexivity).
    cbn [with_pbc file pb_char eof_reached char_count line_count line_pos pb_line_pos].
    split; [rewrite Pf, pop_0 by exact W; unfold view; destruct (Nat.ltb_spec 0 (nb (pb_char s))); [reflexivity|lia]|].
    split; [reflexivity|]. split; [rewrite Ps; apply pop_wf; exact W|]. split; [rewrite Ps; apply pop_nb|].
    split; [|repeat split].
    intros k. unfold view; cbn [with_pbc file pb_char off]. rewrite Ps, pop_nb. destruct W as [W1 W2].
    destruct (Nat.ltb_spec k (nb (pb_char s) - 1)), (Nat.ltb_spec (S k) (nb (pb_char s))); try lia.
    + apply pop_S; [split; assumption|lia].
    + f_equal; lia.
Qed.
Definition put_line (s : stm) (c : Z) : stm := if c =? NL then with_pbl s (PB_Push (pb_line_pos s) (line_pos s)) else s.
Lemma Getc_eq g s s' : Before_Reading g s = inr s' ->
  Getc g s = let '(c, s) := take s' in (Code c, Update_Counters (put_line (if c =? EOF then with_eof s true else s) c) c).
Proof. intros E. unfold Getc. rewrite E. reflexivity. Qed.
Lemma before_sim g f s i d : sim f s i d ->
  match Before_Reading g s, before (beyond_of g f) i with
  | inl (Code c), inl (RChar c') => c = c' | inl Past, inl RErr => True
  | inr s', inr i' => sim f s' i' d /\ past i' = false
  | _, _ => False end.
Proof.
  intros Hs. pose proof Hs as [F W N V P]. unfold Before_Reading, before, beyond_of. rewrite P. destruct (past i) eqn:Pi.
  2:{ split; [exact Hs|exact Pi]. }
  destruct (eof_action g).
  - exact I.
  - reflexivity.
  - destruct (reposition g).
    + split; [|reflexivity]. unfold Set_Position, CALL_SEEK; cbn [Z.ltb Z.compare Z.to_nat with_eof with_off].
      destruct (is_text g); (constructor; [exact F| | | |reflexivity]); cbn [with_pos with_pbl with_pbc with_eof with_off snd pb_char PB_Init ptr nb].
      1,4: unfold wf; cbn; lia. 1,3: lia.
      all: intros k; unfold view; cbn [with_pos with_pbl with_pbc with_eof with_off snd pb_char PB_Init ptr nb Nat.ltb Nat.leb off file todo]; rewrite Nat.sub_0_r; cbn [Nat.add]; rewrite F; reflexivity.
    + split; [|reflexivity]. constructor; cbn [with_eof file pb_char eof_reached past todo]; try assumption; reflexivity.
Qed.
Lemma view_eq s s' : file s' = file s -> off s' = off s -> pb_char s' = pb_char s -> forall k, view s' k = view s k.
Proof. intros A B C k. unfold view. rewrite A, B, C. reflexivity. Qed.
Lemma finish_eq c s : let s' := Update_Counters (put_line (if c =? EOF then with_eof s true else s) c) c in
  file s' = file s /\ off s' = off s /\ pb_char s' = pb_char s /\ eof_reached s' = (if c =? EOF then true else eof_reached s).
Proof.
  cbv zeta. rewrite uc_file, uc_off, uc_pbc, uc_eof. unfold put_line. destruct (c =? EOF), (c =? NL); repeat split.
Qed.
Lemma push_view s c : wf (pb_char s) -> (nb (pb_char s) < 8)%nat -> forall s', file s' = file s -> off s' = off s -> pb_char s' = PB_Push (pb_char s) c ->
  view s' 0 = c /\ forall k, view s' (S k) = view s k.
Proof.
  intros W N s' F O P. unfold view. rewrite F, O, P, push_nb by (destruct W; assumption).
  split; [destruct (Nat.ltb_spec 0 (Nat.min 8 (S (nb (pb_char s))))); [apply push_0; exact W|lia]|].
  intros k. destruct (Nat.ltb_spec (S k) (Nat.min 8 (S (nb (pb_char s))))), (Nat.ltb_spec k (nb (pb_char s))); try lia.
  - apply push_S; [exact W|lia].
  - f_equal; lia.
Qed.
Lemma unget_eq s c : file (Ungetc s c) = file s /\ off (Ungetc s c) = off s /\ pb_char (Ungetc s c) = PB_Push (pb_char s) c /\ eof_reached (Ungetc s c) = false.
Proof.
  unfold Ungetc. repeat match goal with |- context [if ?b then _ else _] => destruct b end;
  repeat match goal with |- context [PB_Pop ?b] => destruct (PB_Pop b) end; repeat split.
Qed.
Lemma exec_sim g f o s i d : (depth (beyond_of g f) o i d <= 8)%nat -> sim f s i d ->
  let '(r, s') := exec g o s in let '(r', i') := istep (beyond_of g f) o i in r = r' /\ sim f s' i' (depth (beyond_of g f) o i d).
Proof.
  intros D Hs. pose proof (before_sim g f s i d Hs) as B. destruct o as [| |c]; cbn [exec istep depth] in *.
  - destruct (Before_Reading g s) as [a|s1] eqn:E1, (before (beyond_of g f) i) as [r|i1] eqn:E2; try (destruct a); try contradiction.
    + destruct r; try contradiction. subst. unfold Getc. rewrite E1. split; [reflexivity|exact Hs].
    + destruct r; try contradiction. unfold Getc. rewrite E1. split; [reflexivity|exact Hs].
    + destruct B as [[F W N V P] Pi]. rewrite (Getc_eq g s s1 E1). pose proof (take_ok s1 W) as T.
      destruct (take s1) as [c s2]. destruct T as (T0 & TF & TW & TN & TV & TE & _).
      destruct (finish_eq c s2) as (F1 & F2 & F3 & F4). cbv zeta in *.
      rewrite V in T0. split; [rewrite T0; reflexivity|].
      constructor.
      * rewrite F1, TF. exact F.
      * rewrite F3. exact TW.
      * rewrite F3, TN. lia.
      * intros k. rewrite (view_eq _ _ F1 F2 F3). cbn [todo]. rewrite TV. apply V.
      * rewrite F4. cbn [past]. rewrite <- T0, TE, P, Pi. change EOF with (-1). destruct (c =? -1); reflexivity.
  - destruct (Before_Reading g s) as [a|s1] eqn:E1, (before (beyond_of g f) i) as [r|i1] eqn:E2; try (destruct a); try contradiction.
    + destruct r; try contradiction. subst. unfold Peekc. rewrite E1. split; [reflexivity|exact Hs].
    + destruct r; try contradiction. unfold Peekc. rewrite E1. split; [reflexivity|exact Hs].
    + destruct B as [[F W N V P] Pi]. unfold Peekc. rewrite E1. pose proof (take_ok s1 W) as T. unfold take, PB_Is_Empty in *.
      destruct (Nat.eqb_spec (nb (pb_char s1)) 0) as [E|E].
      * destruct (CALL_GETC s1) as [c s2]. destruct T as (T0 & TF & TW & TN & TV & TE & _).
        destruct (push_view s2 c TW ltac:(lia) (with_pbc s2 (PB_Push (pb_char s2) c)) eq_refl eq_refl eq_refl) as [P0 PS].
        split; [rewrite T0, V; reflexivity|]. constructor.
        -- cbn [with_pbc file]. rewrite TF. exact F.
        -- cbn [with_pbc pb_char]. apply push_wf. exact TW.
        -- cbn [with_pbc pb_char]. rewrite push_nb by (destruct TW; assumption). lia.
        -- intros [|k]; [rewrite P0, T0; apply V|]. rewrite PS, TV. apply V.
        -- cbn [with_pbc eof_reached]. rewrite TE. exact P.
      * split; [|constructor; try assumption; lia].
        rewrite top_0 by exact W. rewrite <- V. unfold view. destruct (Nat.ltb_spec 0 (nb (pb_char s1))); [reflexivity|lia].
  - destruct Hs as [F W N V P]. destruct (unget_eq s c) as (U1 & U2 & U3 & U4).
    split; [reflexivity|]. destruct (push_view s c W ltac:(lia) (Ungetc s c) U1 U2 U3) as [P0 PS]. constructor.
    + rewrite U1. exact F.
    + rewrite U3. apply push_wf. exact W.
    + rewrite U3, push_nb by (destruct W; assumption). lia.
    + intros [|k]; cbn [todo]; [exact P0|]. rewrite PS. apply V.
    + exact U4.
Qed.
Lemma run_sim g f l : forall s i d, shallow (beyond_of g f) l i d -> sim f s i d ->
  exists d', fst (run g l s) = fst (irun (beyond_of g f) l i) /\ sim f (snd (run g l s)) (snd (irun (beyond_of g f) l i)) d'.
Proof.
  induction l as [|o l IH]; intros s i d D Hs; cbn [run irun].
  - exists d. split; [reflexivity|exact Hs].
  - destruct D as [D1 D2]. pose proof (exec_sim g f o s i d D1 Hs) as E. destruct (exec g o s) as [r s1], (istep (beyond_of g f) o i) as [r' i1].
    cbn [snd] in D2. destruct E as [-> E]. destruct (IH s1 i1 _ D2 E) as (d' & A & B).
    destruct (run g l s1), (irun (beyond_of g f) l i1). cbn [fst snd] in *. exists d'. split; [rewrite A; reflexivity|exact B].
Qed.
Lemma init_sim f b1 b2 : sim f (Init_Stream_Struct f b1 b2) (Inp (of_text f) false) 0.
Proof. constructor; [reflexivity|unfold wf; cbn; lia|cbn; lia| |reflexivity]. intros k. unfold view; cbn. rewrite Nat.sub_0_r. reflexivity. Qed.
