Require Import ZArith List Bool Lia Arith.
Require Import Verif.Heap_Model Verif.Stream_Model Verif.Stream_Spec Verif.Stream_Proofs.
Import ListNotations.
Open Scope Z_scope.

(** ** Positions, from the text read backwards *)
Fixpoint col (r : list Z) : Z := match r with [] => 0 | c :: r => if c =? 10 then 0 else 1 + col r end.
(** the columns of the ends of lines, last first *)
Fixpoint hist (r : list Z) : list Z := match r with [] => [] | c :: r => if c =? 10 then col r :: hist r else hist r end.
Definition nl (r : list Z) : nat := length (hist r).
Lemma col_nonneg r : 0 <= col r.
Proof. induction r as [|c r IH]; cbn [col]; [lia|]. destruct (c =? 10); lia. Qed.
Lemma nl_cons c r : nl (c :: r) = ((if (c =? 10)%Z then 1 else 0) + nl r)%nat.
Proof. unfold nl. cbn [hist]. destruct (c =? 10); reflexivity. Qed.
Lemma nl_app r q : nl (r ++ q) = (nl r + nl q)%nat.
Proof. induction r as [|c r IH]; [reflexivity|]. cbn [app]. rewrite !nl_cons, IH. lia. Qed.
Lemma lines_app a b : lines (a ++ b) = lines a + lines b.
Proof. induction a as [|c a IH]; cbn [app lines]; [lia|]. rewrite IH. lia. Qed.
Lemma lines_rev r : lines (rev r) = Z.of_nat (nl r).
Proof.
  induction r as [|c r IH]; [reflexivity|]. cbn [rev]. rewrite lines_app, IH, nl_cons. cbn [lines]. destruct (c =? 10); lia.
Qed.
Lemma col_last r : exists u, last_line (rev r) u /\ col r = Z.of_nat (length u).
Proof.
  induction r as [|c r (u & A & B)]; [exists []; split; [constructor; intros []|reflexivity]|].
  cbn [rev col]. destruct (Z.eqb_spec c 10) as [->|N].
  - exists []. split; [|reflexivity]. apply (ll_next (rev r) []). intros [].
  - exists (u ++ [c]). split; [|rewrite app_length; cbn [length]; lia].
    destruct A as [t K|a t K].
    + apply ll_first. rewrite in_app_iff. cbn [In]. intros [?|[?|[]]]; [auto|congruence].
    + rewrite <- app_assoc. cbn [app]. apply ll_next. rewrite in_app_iff. cbn [In]. intros [?|[?|[]]]; [auto|congruence].
Qed.
Lemma is_pos_rev r : is_pos (rev r) (Z.of_nat (length r), Z.of_nat (nl r), col r).
Proof. destruct (col_last r) as (u & A & B). exists u. split; [exact A|]. rewrite rev_length, lines_rev, B. reflexivity. Qed.
Lemma last_line_fun t u v : last_line t u -> last_line t v -> u = v.
Proof.
  assert (L : forall a b (x y : list Z), ~ In 10 x -> ~ In 10 y -> a ++ 10 :: x = b ++ 10 :: y -> x = y).
  { induction a as [|h a IH]; intros [|k b] x y X Y E; cbn [app] in E.
    - congruence.
    - injection E as E1 E2. subst. elim X. apply in_elt.
    - injection E as E1 E2. subst. elim Y. apply in_elt.
    - injection E as E1 E2. exact (IH b x y X Y E2). }
  intros A B. inversion A as [t1 A1 A2|a1 t1 A1 A2]; inversion B as [t2 B1 B2|a2 t2 B1 B2]; subst.
  - reflexivity.
  - elim A1. apply in_elt.
  - elim B1. apply in_elt.
  - exact (L _ _ _ _ A1 B1 (eq_sym B2)).
Qed.
Lemma is_pos_fun t p q : is_pos t p -> is_pos t q -> p = q.
Proof. intros (u & A & ->) (v & B & ->). rewrite (last_line_fun t u v A B). reflexivity. Qed.

(** ** The invariant of a cursor: [q] was read before the base and [r] since (both backwards), [u] is to be read *)
Record at_ (q r u : list Z) (s : stm) : Prop := At {
  at_file : file s = rev (r ++ q) ++ u; at_bytes : Forall (fun c => 0 <= c) (file s); at_eof : eof_reached s = false;
  at_wfc : wf (pb_char s); at_wfl : wf (pb_line_pos s);
  at_view : forall k, view s k = of_text u k;
  at_off : off s = (length (r ++ q) + Nat.min (nb (pb_char s)) (length u))%nat;
  at_cc : char_count s = Z.of_nat (length (r ++ q)); at_lc : line_count s = Z.of_nat (nl (r ++ q)); at_lp : line_pos s = col (r ++ q);
  at_nbl : (nb (pb_line_pos s) <= nl (r ++ q))%nat;
  at_ring : forall i, (i < nb (pb_line_pos s))%nat -> ring (pb_line_pos s) i = nth i (hist (r ++ q)) 0;
  at_enough : (Nat.min (nl r) (8 - nl (firstn (nb (pb_char s)) u)) <= nb (pb_line_pos s))%nat }.

Lemma at_before g q r u s : at_ q r u s -> Before_Reading g s = inr s.
Proof. intros A. unfold Before_Reading. rewrite (at_eof _ _ _ _ A). reflexivity. Qed.
Lemma at_char q r c u s : at_ q r (c :: u) s -> 0 <= c.
Proof. intros A. pose proof (at_bytes _ _ _ _ A) as B. rewrite (at_file _ _ _ _ A) in B. apply Forall_app in B. destruct B as [_ B]. inversion B; assumption. Qed.
Lemma file_step (r q u : list Z) c : rev (r ++ q) ++ c :: u = rev ((c :: r) ++ q) ++ u.
Proof. cbn [app rev]. rewrite <- app_assoc. reflexivity. Qed.

Lemma take_off s : off (snd (take s)) = (if PB_Is_Empty (pb_char s) then match nth_error (file s) (off s) with Some _ => S (off s) | None => off s end else off s).
Proof.
  unfold take. destruct (PB_Is_Empty (pb_char s)).
  - unfold CALL_GETC. destruct (nth_error (file s) (off s)); reflexivity.
  - destruct (PB_Pop (pb_char s)); reflexivity.
Qed.
Lemma get_at g q r c u s : at_ q r (c :: u) s -> exists s', Getc g s = (Code c, s') /\ at_ q (c :: r) u s' /\ nb (pb_char s') = (nb (pb_char s) - 1)%nat.
Proof.
  intros A. pose proof (at_char _ _ _ _ _ A) as Ac. rewrite (Getc_eq g s s (at_before g _ _ _ _ A)).
  destruct A as [F By E Wc Wl V O CC LC LP NB RI EN].
  pose proof (take_ok s Wc) as T. pose proof (take_off s) as TO. destruct (take s) as [c' s1]. cbn [snd] in TO.
  destruct T as (T0 & TF & TW & TN & TV & TE & T1 & T2 & T3 & T4).
  assert (c' = c) as -> by (rewrite T0, V; reflexivity). clear T0.
  eexists. split; [reflexivity|].
  replace (c =? EOF) with false by (symmetry; apply Z.eqb_neq; unfold EOF; lia).
  destruct (finish_eq c s1) as (F1 & F2 & F3 & F4). cbv zeta in *.
  replace (c =? EOF) with false in * by (symmetry; apply Z.eqb_neq; unfold EOF; lia).
  split; [|rewrite F3; exact TN].
  assert (PL : pb_line_pos (Update_Counters (put_line s1 c) c) = if c =? NL then PB_Push (pb_line_pos s) (line_pos s) else pb_line_pos s).
  { rewrite uc_pbl. unfold put_line. destruct (c =? NL); cbn [with_pbl pb_line_pos]; rewrite ?T4, ?T3; reflexivity. }
  constructor.
  - rewrite F1, TF, F. apply file_step.
  - rewrite F1, TF. exact By.
  - rewrite F4, TE. exact E.
  - rewrite F3. exact TW.
  - rewrite PL. destruct (c =? NL); [apply push_wf|]; exact Wl.
  - intros k. rewrite (view_eq _ _ F1 F2 F3), TV, V. reflexivity.
  - rewrite F2, F3, TO, TN. unfold PB_Is_Empty. cbn [app length] in *. destruct (Nat.eqb_spec (nb (pb_char s)) 0) as [Z0|Z0].
    + replace (nth_error (file s) (off s)) with (Some c); [lia|].
      rewrite F, O, Z0. cbn [Nat.min]. rewrite Nat.add_0_r, nth_error_app2 by (rewrite rev_length; lia). rewrite rev_length, Nat.sub_diag. reflexivity.
    + lia.
  - unfold Update_Counters. replace (c =? EOF) with false by (symmetry; apply Z.eqb_neq; unfold EOF; lia).
    unfold put_line. cbn [app length]. destruct (c =? NL); cbn [with_pos with_pbl char_count]; rewrite T1; lia.
  - unfold Update_Counters, put_line. cbn [app]. rewrite nl_cons. change NL with 10. destruct (c =? 10); cbn [with_pos with_pbl line_count]; rewrite T2; lia.
  - unfold Update_Counters, put_line. cbn [app col]. change NL with 10. destruct (c =? 10); cbn [with_pos with_pbl line_pos]; [reflexivity|]. rewrite T3; lia.
  - rewrite PL. cbn [app]. rewrite nl_cons. change NL with 10. destruct Wl. destruct (c =? 10); [rewrite push_nb by assumption|]; lia.
  - rewrite PL. cbn [app hist]. change NL with 10. destruct (c =? 10); [|exact RI].
    intros i. rewrite push_nb by (destruct Wl; assumption). intros Hi. destruct i as [|i]; [rewrite push_0 by exact Wl; exact LP|].
    rewrite push_S by (try exact Wl; lia). cbn [nth]. apply RI. lia.
  - rewrite PL, F3, TN. rewrite nl_cons. change NL with 10. destruct Wl as [_ Wl].
    assert (FN : nl (firstn (nb (pb_char s)) (c :: u)) = (if Nat.eqb (nb (pb_char s)) 0 then 0 else (if (c =? 10)%Z then 1 else 0) + nl (firstn (nb (pb_char s) - 1) u))%nat).
    { destruct (nb (pb_char s)) as [|m]; [reflexivity|]. cbn [firstn Nat.eqb]. rewrite nl_cons. replace (S m - 1)%nat with m by lia. reflexivity. }
    rewrite FN in EN. destruct (Nat.eqb_spec (nb (pb_char s)) 0) as [Z0|Z0].
    + rewrite Z0 in *. cbn [Nat.sub firstn]. change (nl []) with 0%nat in *. destruct (c =? 10); [rewrite push_nb by assumption|]; lia.
    + destruct (c =? 10); [rewrite push_nb by assumption|]; lia.
Qed.
Lemma peek_at g q r u s : at_ q r u s -> exists s', Peekc g s = (Code (of_text u 0), s') /\ at_ q r u s' /\ nb (pb_char s') = Nat.max (nb (pb_char s)) 1.
Proof.
  intros A. unfold Peekc. rewrite (at_before g _ _ _ _ A). destruct A as [F By E Wc Wl V O CC LC LP NB RI EN].
  pose proof (take_ok s Wc) as T. pose proof (take_off s) as TO. unfold take in *.
  unfold PB_Is_Empty in *. destruct (Nat.eqb_spec (nb (pb_char s)) 0) as [Z0|Z0].
  - destruct (CALL_GETC s) as [c s1]. cbn [snd] in TO. destruct T as (T0 & TF & TW & TN & TV & TE & T1 & T2 & T3 & T4).
    destruct (push_view s1 c TW ltac:(lia) (with_pbc s1 (PB_Push (pb_char s1) c)) eq_refl eq_refl eq_refl) as [P0 PS].
    rewrite V in T0. exists (with_pbc s1 (PB_Push (pb_char s1) c)).
    assert (NC : nb (PB_Push (pb_char s1) c) = 1%nat) by (rewrite push_nb by lia; rewrite TN, Z0; reflexivity).
    split; [rewrite T0; reflexivity|]. split; [|cbn [with_pbc pb_char]; rewrite NC; lia].
    constructor; cbn [with_pbc file eof_reached pb_char pb_line_pos off char_count line_count line_pos]; rewrite ?T4, ?T3, ?T2, ?T1; try assumption.
    + rewrite TF; exact F.
    + rewrite TF; exact By.
    + rewrite TE; exact E.
    + apply push_wf; exact TW.
    + intros [|k]; [rewrite P0, T0; reflexivity|]. rewrite PS, TV. apply V.
    + rewrite TO, NC. rewrite F, O, Z0. cbn [Nat.min]. rewrite Nat.add_0_r, nth_error_app2 by (rewrite rev_length; lia). rewrite rev_length, Nat.sub_diag.
      destruct u as [|x u]; cbn [nth_error length]; lia.
    + rewrite NC. rewrite Z0 in EN. cbn [firstn] in EN. change (nl []) with 0%nat in EN. lia.
  - exists s. split; [|split; [constructor; assumption|lia]].
    rewrite top_0 by exact Wc. rewrite <- V. unfold view. destruct (Nat.ltb_spec 0 (nb (pb_char s))); [reflexivity|lia].
Qed.
Lemma unget_at q r c u s : (nb (pb_char s) < 8)%nat -> at_ q (c :: r) u s -> at_ q r (c :: u) (Ungetc s c) /\ nb (pb_char (Ungetc s c)) = S (nb (pb_char s)).
Proof.
  intros N8 A. destruct A as [F By E Wc Wl V O CC LC LP NB RI EN].
  destruct (unget_eq s c) as (U1 & U2 & U3 & U4). destruct (push_view s c Wc N8 (Ungetc s c) U1 U2 U3) as [P0 PS].
  assert (NC : nb (PB_Push (pb_char s) c) = S (nb (pb_char s))) by (rewrite push_nb by (destruct Wc; assumption); lia).
  cbn [app length] in CC, LC, LP, O. rewrite nl_cons in LC. cbn [col] in LP. cbn [app] in NB. rewrite nl_cons in NB, EN.
  assert (LE : (nl (firstn (nb (pb_char s)) u) <= nb (pb_char s))%nat).
  { assert (G : forall n (l : list Z), (nl (firstn n l) <= n)%nat). { clear. induction n as [|n IH]; intros [|x l]; cbn [firstn]; try (unfold nl; cbn; lia). rewrite nl_cons. specialize (IH l). destruct (x =? 10); lia. } apply G. }
  assert (CN : char_count (Ungetc s c) = Z.of_nat (length (r ++ q)) /\ line_count (Ungetc s c) = Z.of_nat (nl (r ++ q)) /\ line_pos (Ungetc s c) = col (r ++ q) /\
    pb_line_pos (Ungetc s c) = if c =? 10 then snd (PB_Pop (pb_line_pos s)) else pb_line_pos s).
  { unfold Ungetc. cbn [with_eof with_pbc char_count]. change NL with 10.
    destruct (Z.ltb_spec 0 (char_count s)) as [L|L]; [|lia]. cbn [with_pos with_eof with_pbc char_count line_count line_pos pb_line_pos].
    destruct (Z.eqb_spec c 10) as [->|K].
    - destruct (Z.ltb_spec 0 (line_count s)) as [L2|L2]; [|lia]. cbn [with_pos with_eof with_pbc with_pbl char_count line_count line_pos pb_line_pos].
      unfold PB_Is_Empty. destruct (Nat.eqb_spec (nb (pb_line_pos s)) 0) as [Z0|Z0]; [lia|].
      pose proof (pop_0 _ Wl) as PP. destruct (PB_Pop (pb_line_pos s)) as [lp p]. cbn [fst] in PP. cbn [with_pos with_eof with_pbc with_pbl char_count line_count line_pos pb_line_pos snd].
      split; [lia|]. split; [lia|]. split; [|reflexivity]. rewrite PP, RI by lia. reflexivity.
    - pose proof (col_nonneg (r ++ q)) as CN. destruct (Z.ltb_spec 0 (line_pos s)) as [L2|L2]; [|lia].
      cbn [with_pos with_eof with_pbc with_pbl char_count line_count line_pos pb_line_pos]. split; [lia|]. split; [lia|]. split; [lia|reflexivity]. }
  destruct CN as (C1 & C2 & C3 & C4).
  split; [|rewrite U3; exact NC]. constructor; try assumption.
  - rewrite U1, F. symmetry. apply file_step.
  - rewrite U1. exact By.
  - rewrite U3. apply push_wf. exact Wc.
  - rewrite C4. destruct (c =? 10); [apply pop_wf|]; exact Wl.
  - intros [|k]; [exact P0|]. rewrite PS, V. reflexivity.
  - rewrite U2, U3, NC, O. cbn [length]. lia.
  - rewrite C4. destruct (c =? 10); [rewrite pop_nb|]; lia.
  - rewrite C4. cbn [app hist] in RI. destruct (c =? 10); [|exact RI]. rewrite pop_nb. intros i Hi. destruct Wl as [W1 W2].
    rewrite pop_S by (try (split; assumption); lia). rewrite RI by lia. reflexivity.
  - rewrite C4, U3, NC. cbn [firstn]. rewrite nl_cons. destruct (c =? 10); [rewrite pop_nb|]; lia.
Qed.
Lemma cursor_at g l r u r' u' : cursor l r u r' u' -> forall q s d, put_back l d -> (nb (pb_char s) <= d)%nat -> at_ q r u s -> at_ q r' u' (snd (run g l s)).
Proof.
  induction 1 as [r u|l c r u r' u' _ IH|l r u r' u' _ IH|l c r u r' u' _ IH]; intros q s d D N A; cbn [run].
  - exact A.
  - cbn [put_back] in D. destruct (get_at g q r c u s A) as (s1 & G & A1 & N1). cbn [exec]. rewrite G.
    assert (X := IH q s1 (d - 1)%nat D ltac:(lia) A1). destruct (run g l s1). exact X.
  - cbn [put_back] in D. destruct (peek_at g q r u s A) as (s1 & G & A1 & N1). cbn [exec]. rewrite G.
    assert (X := IH q s1 (Nat.max d 1) D ltac:(lia) A1). destruct (run g l s1). exact X.
  - cbn [put_back] in D. destruct D as [D1 D2]. destruct (unget_at q r c u s ltac:(lia) A) as (A1 & N1). cbn [exec].
    assert (X := IH q (Ungetc s c) (S d) D2 ltac:(lia) A1). destruct (run g l (Ungetc s c)). exact X.
Qed.
Lemma cursor_in_nb g l r u r' u' : cursor_in l r u r' u' -> forall q s d, put_back l d -> (nb (pb_char s) <= d)%nat -> at_ q r u s ->
  (nb (pb_char s) <= length u)%nat -> (nb (pb_char (snd (run g l s))) <= length u')%nat.
Proof.
  induction 1 as [r u|l c r u r' u' _ IH|l r u r' u' NE _ IH|l c r u r' u' _ IH]; intros q s d D N A B; cbn [run].
  - exact B.
  - cbn [put_back] in D. destruct (get_at g q r c u s A) as (s1 & G & A1 & N1). cbn [exec]. rewrite G. cbn [length] in B.
    assert (X := IH q s1 (d - 1)%nat D ltac:(lia) A1 ltac:(lia)). destruct (run g l s1). exact X.
  - cbn [put_back] in D. destruct (peek_at g q r u s A) as (s1 & G & A1 & N1). cbn [exec]. rewrite G.
    assert (1 <= length u)%nat by (destruct u; [congruence|cbn [length]; lia]).
    assert (X := IH q s1 (Nat.max d 1) D ltac:(lia) A1 ltac:(lia)). destruct (run g l s1). exact X.
  - cbn [put_back] in D. destruct D as [D1 D2]. destruct (unget_at q r c u s ltac:(lia) A) as (A1 & N1). cbn [exec].
    assert (X := IH q (Ungetc s c) (S d) D2 ltac:(lia) A1 ltac:(cbn [length]; lia)). destruct (run g l (Ungetc s c)). exact X.
Qed.
Lemma cursor_in_cursor l r u r' u' : cursor_in l r u r' u' -> cursor l r u r' u'.
Proof. induction 1; constructor; assumption. Qed.
Lemma init_at f b1 b2 : Forall (fun c => 0 <= c) f -> at_ [] [] f (Init_Stream_Struct f b1 b2).
Proof.
  intros B. constructor; try reflexivity; try assumption; try (unfold wf; cbn; lia).
  - intros k. unfold view; cbn. rewrite Nat.sub_0_r. reflexivity.
Qed.
