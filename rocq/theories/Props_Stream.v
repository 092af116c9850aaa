(** C41, C42, C56: streams. *)
Require Import ZArith List Bool Lia Arith.
Require Import Verif.Heap_Model Verif.Stream_Model Verif.Stream_Spec Verif.Stream_Proofs Verif.Stream_Pos Verif.Stream_More.
Import ListNotations.
Open Scope Z_scope.

Definition bytes (f : list Z) : Prop := Forall (fun c => 0 <= c) f.
Definition junk : nat -> Z := fun i => Z.of_nat i + 500.
Definition text_file : prop := Prop_ EOF_ERROR true true.
Definition counters (s : stm) : Z * Z * Z := (char_count s, line_count s, line_pos s).

(** ** C41: any reading, peeking and putting back (of any character, also of the end) with at most eight characters waiting gives the
    answers of the ideal stream, where peeking changes nothing and putting back is exact, for the three end of file actions. *)
Theorem C41_content : forall g f b1 b2 l, shallow (beyond_of g f) l (Inp (of_text f) false) 0 ->
  fst (run g l (Init_Stream_Struct f b1 b2)) = fst (irun (beyond_of g f) l (Inp (of_text f) false)).
Proof. intros g f b1 b2 l D. destruct (run_sim g f l _ _ _ D (init_sim f b1 b2)) as (d & A & _). exact A. Qed.
Definition mix : list op := [Get; Peek; Unget 97; Unget 120; Get; Get; Get; Get; Get; Get].
Example C41_content_ex : shallow (beyond_of text_file [97; 10; 98]) mix (Inp (of_text [97; 10; 98]) false) 0 /\
  fst (run text_file mix (Init_Stream_Struct [97; 10; 98] junk junk)) =
    [RChar 97; RChar 10; RNone; RNone; RChar 120; RChar 97; RChar 10; RChar 98; RChar (-1); RErr].
Proof. split; [cbn; lia|vm_compute; reflexivity]. Qed.
(** The ninth character put back is written over the first one. *)
Definition nine : list op := map Unget [1; 2; 3; 4; 5; 6; 7; 8; 9] ++ repeat Get 9.
Theorem C41_nine_refuted : exists g f l, fst (run g l (Init_Stream_Struct f junk junk)) <> fst (irun (beyond_of g f) l (Inp (of_text f) false)).
Proof. exists text_file, [97; 98], nine. vm_compute. discriminate. Qed.

(** Peeking gives what the next reading gives, and changes neither this nor the counters. *)
Theorem C41_peek : forall g s, wf (pb_char s) -> eof_reached s = false ->
  let '(a, s1) := Peekc g s in
  fst (Getc g s) = a /\ fst (Getc g s1) = a /\ counters s1 = counters s /\ counters (snd (Getc g s1)) = counters (snd (Getc g s)) /\ eof_reached s1 = false.
Proof.
  intros g s W E.
  assert (B : forall s, eof_reached s = false -> Before_Reading g s = inr s) by (intros s0 E0; unfold Before_Reading; rewrite E0; reflexivity).
  assert (G : forall s, wf (pb_char s) -> eof_reached s = false -> fst (Getc g s) = Code (view s 0) /\ counters (snd (Getc g s)) = counters (Update_Counters s (view s 0))).
  { intros s0 W0 E0. rewrite (Getc_eq g s0 s0 (B s0 E0)). pose proof (take_ok s0 W0) as T. destruct (take s0) as [c s1].
    destruct T as (-> & _ & _ & _ & _ & _ & T1 & T2 & T3 & _). split; [reflexivity|]. unfold counters, Update_Counters, put_line.
    destruct (view s0 0 =? EOF), (view s0 0 =? NL); cbn; rewrite ?T1, ?T2, ?T3; reflexivity. }
  unfold Peekc. rewrite (B s E). destruct (G s W E) as [G1 G2].
  unfold PB_Is_Empty. destruct (Nat.eqb_spec (nb (pb_char s)) 0) as [Z0|Z0].
  - pose proof (take_ok s W) as T. unfold take, PB_Is_Empty in T. rewrite Z0 in T. cbn [Nat.eqb] in T. destruct (CALL_GETC s) as [c s1].
    destruct T as (T0 & TF & TW & TN & TV & TE & T1 & T2 & T3 & T4).
    destruct (push_view s1 c TW ltac:(lia) (with_pbc s1 (PB_Push (pb_char s1) c)) eq_refl eq_refl eq_refl) as [P0 _].
    destruct (G (with_pbc s1 (PB_Push (pb_char s1) c))) as [H1 H2]; [apply push_wf; exact TW|cbn; rewrite TE; exact E|].
    rewrite G1, G2, H1, H2, P0, <- T0. split; [reflexivity|]. split; [reflexivity|]. unfold counters. split; [cbn; rewrite T1, T2, T3; reflexivity|].
    split; [|cbn; rewrite TE; exact E]. unfold Update_Counters. destruct (c =? EOF), (c =? NL); cbn; rewrite ?T1, ?T2, ?T3; reflexivity.
  - rewrite G1, top_0 by exact W. unfold view. destruct (Nat.ltb_spec 0 (nb (pb_char s))); [|lia]. repeat split; exact E.
Qed.
Example C41_peek_ex : wf (pb_char (Init_Stream_Struct [10; 97] junk junk)) /\ fst (Peekc text_file (Init_Stream_Struct [10; 97] junk junk)) = Code 10.
Proof. split; [unfold wf; cbn; lia|reflexivity]. Qed.

(** at_end_of_stream: past the end exactly when the end has been read (then reading is an error, for the action error), at the end exactly
    when the next reading gives the end, never with the action reset; and it changes nothing that is read later. *)
Theorem C41_at_end : forall g s, wf (pb_char s) ->
  let '(e, s1) := End_Of_Stream g s in
  (eof_action g = EOF_RESET -> e = EOF_NOT /\ s1 = s) /\
  (eof_action g <> EOF_RESET -> (e = EOF_PAST <-> eof_reached s = true) /\
    (eof_reached s = false -> (e = EOF_AT <-> fst (Getc g s) = Code (-1)) /\ fst (Getc g s1) = fst (Getc g s))) /\
  (eof_action g = EOF_ERROR -> (e = EOF_PAST <-> fst (Getc g s) = Past)) /\ counters s1 = counters s.
Proof.
  intros g s W. pose proof (C41_peek g s W) as P. unfold End_Of_Stream.
  assert (Q : eof_reached s = false -> fst (Getc g s) <> Past).
  { intros E. unfold Getc, Before_Reading. rewrite E. destruct (PB_Is_Empty (pb_char s)); [destruct (CALL_GETC s)|destruct (PB_Pop (pb_char s))]; cbn; discriminate. }
  assert (Q1 : eof_reached s = true -> eof_action g = EOF_ERROR -> fst (Getc g s) = Past) by (intros E A; unfold Getc, Before_Reading; now rewrite E, A).
  destruct (eof_action g) eqn:A; [..|repeat split; intros; congruence].
  - destruct (eof_reached s) eqn:E; [repeat split; intros; try congruence; auto|].
    destruct (Peekc g s) as [a s1]. destruct (P eq_refl) as (<- & P1 & P2 & _).
    destruct (fst (Getc g s)) as [c|] eqn:G; [|now elim Q]. unfold EOF. destruct (Z.eqb_spec c (-1)); repeat split; intros; congruence.
  - destruct (eof_reached s) eqn:E; [repeat split; intros; congruence|].
    destruct (Peekc g s) as [a s1]. destruct (P eq_refl) as (<- & P1 & P2 & _).
    destruct (fst (Getc g s)) as [c|] eqn:G; [|now elim Q]. unfold EOF. destruct (Z.eqb_spec c (-1)); repeat split; intros; congruence.
Qed.
Example C41_at_end_ex :
  let s k := snd (run text_file (repeat Get k) (Init_Stream_Struct [97] junk junk)) in
  wf (pb_char (s 2%nat)) /\ fst (End_Of_Stream text_file (s 0%nat)) = EOF_NOT /\ fst (End_Of_Stream text_file (s 1%nat)) = EOF_AT /\ fst (End_Of_Stream text_file (s 2%nat)) = EOF_PAST.
Proof. split; [unfold wf; cbn; lia|]. now vm_compute. Qed.

(** Reading, peeking and putting back what was read (at most eight characters waiting): the counters are the position of the text
    that is read and not put back. *)
Theorem C41_position : forall g f b1 b2 l r u, bytes f -> cursor l [] f r u -> put_back l 0 ->
  is_pos (rev r) (counters (snd (run g l (Init_Stream_Struct f b1 b2)))).
Proof.
  intros g f b1 b2 l r u B C D. pose proof (cursor_at g l [] f r u C [] (Init_Stream_Struct f b1 b2) 0%nat D (le_n 0) (init_at f b1 b2 B)) as A.
  unfold counters. rewrite (at_cc _ _ _ _ A), (at_lc _ _ _ _ A), (at_lp _ _ _ _ A), app_nil_r. apply is_pos_rev.
Qed.
Definition walk : list op := [Get; Get; Get; Peek; Unget 10; Unget 10; Get; Peek; Unget 10; Unget 97].
Example C41_position_ex : cursor walk [] [97; 10; 10; 98] [] [97; 10; 10; 98] /\ put_back walk 0 /\
  counters (snd (run text_file (firstn 5 walk) (Init_Stream_Struct [97; 10; 10; 98] junk junk))) = (2, 1, 0).
Proof. split; [repeat constructor|]. split; [cbn; lia|vm_compute; reflexivity]. Qed.
(** Putting back the end that was read leaves a character count that is one too small. *)
Theorem C41_unget_end_refuted : exists g f, bytes f /\
  let s := snd (run g (map (fun _ => Get) f) (Init_Stream_Struct f junk junk)) in
  counters (snd (run g [Get; Unget (-1)] s)) <> counters s.
Proof. exists text_file, [97; 98]. split; [repeat constructor; lia|vm_compute; discriminate]. Qed.

(** ** C42: the position reported for a text stream is true, when the end was not peeked *)
Theorem C42_position_partial : forall g f b1 b2 l r u, bytes f -> reposition g = true -> is_text g = true -> cursor_in l [] f r u -> put_back l 0 ->
  exists cc lc lp, Get_Position g (snd (run g l (Init_Stream_Struct f b1 b2))) = (Z.of_nat (length r), cc, lc, lp) /\ is_pos (rev r) (cc, lc, lp).
Proof.
  intros g f b1 b2 l r u B P T C D. pose proof (init_at f b1 b2 B) as I0.
  pose proof (cursor_at g l [] f r u (cursor_in_cursor _ _ _ _ _ C) [] (Init_Stream_Struct f b1 b2) 0%nat D (le_n 0) I0) as A.
  pose proof (cursor_in_nb g l [] f r u C [] (Init_Stream_Struct f b1 b2) 0%nat D (le_n 0) I0 (Nat.le_0_l _)) as N.
  rewrite (get_position_at g _ _ _ _ A N P T), app_nil_r. eexists _, _, _. split; [reflexivity|apply is_pos_rev].
Qed.
Definition look : list op := [Get; Get; Peek; Get; Unget 98; Peek].
Example C42_position_ex : cursor_in look [] [97; 10; 98; 99] [10; 97] [98; 99] /\ put_back look 0 /\
  Get_Position text_file (snd (run text_file look (Init_Stream_Struct [97; 10; 98; 99] junk junk))) = (2, 2, 1, 0).
Proof. split; [repeat (constructor; try discriminate)|]. split; [cbn; lia|vm_compute; reflexivity]. Qed.
(** The position taken after peeking at the end (as at_end_of_stream/1 does) is one character before: setting it gives the last character again. *)
Theorem C42_peek_end_refuted : exists g f, bytes f /\
  let s := snd (run g (map (fun _ => Get) f) (Init_Stream_Struct f junk junk)) in
  let '(e, s1) := End_Of_Stream g s in
  let '(o, cc, lc, lp) := Get_Position g s1 in
  let '(b, s2) := Set_Position g s1 SET o cc lc lp in
  e = EOF_AT /\ b = true /\ fst (Getc g s1) = Code EOF /\ fst (Getc g s2) <> Code EOF.
Proof. exists text_file, [97; 98]. split; [repeat constructor; lia|]. vm_compute. split; [reflexivity|]. split; [reflexivity|]. split; [reflexivity|discriminate]. Qed.
(** After reading the end the column is one too large. *)
Theorem C42_end_refuted : exists g f, bytes f /\ ~ is_pos f (counters (snd (run g (map (fun _ => Get) f ++ [Get]) (Init_Stream_Struct f junk junk)))).
Proof.
  exists text_file, [97; 10; 98]. split; [repeat constructor; lia|]. intros X. pose proof (is_pos_rev (rev [97; 10; 98])) as Y. rewrite rev_involutive in Y.
  pose proof (is_pos_fun _ _ _ X Y) as Z. vm_compute in Z. discriminate.
Qed.
(** Setting a position that was got (whatever was done since) gives the same input and the same positions. *)
Theorem C42_restore_partial : forall g f b1 b2 l r u, bytes f -> reposition g = true -> is_text g = true -> cursor_in l [] f r u -> put_back l 0 ->
  let '(o, cc, lc, lp) := Get_Position g (snd (run g l (Init_Stream_Struct f b1 b2))) in
  forall s2, file s2 = f -> exists s3, Set_Position g s2 SET o cc lc lp = (true, s3) /\ counters s3 = (cc, lc, lp) /\
    (forall l2, shallow (beyond_of g f) l2 (Inp (of_text u) false) 0 -> fst (run g l2 s3) = fst (irun (beyond_of g f) l2 (Inp (of_text u) false))) /\
    (forall l2 r2 u2, cursor l2 [] u r2 u2 -> put_back l2 0 -> is_pos (rev r ++ rev r2) (counters (snd (run g l2 s3)))).
Proof.
  intros g f b1 b2 l r u B P T C D. pose proof (init_at f b1 b2 B) as I0.
  pose proof (cursor_at g l [] f r u (cursor_in_cursor _ _ _ _ _ C) [] (Init_Stream_Struct f b1 b2) 0%nat D (le_n 0) I0) as A.
  pose proof (cursor_in_nb g l [] f r u C [] (Init_Stream_Struct f b1 b2) 0%nat D (le_n 0) I0 (Nat.le_0_l _)) as N.
  rewrite (get_position_at g _ _ _ _ A N P T), app_nil_r.
  assert (F : f = rev r ++ u).
  { clear - C. assert (G : forall l r u r' u', cursor_in l r u r' u' -> rev r ++ u = rev r' ++ u').
    { induction 1; cbn [rev] in *; rewrite <- ?app_assoc in *; cbn [app] in *; congruence. } exact (G _ _ _ _ _ C). }
  intros s2 F2. destruct (set_position_at g r u s2) as (s3 & E & A3 & N3); [congruence|rewrite F2; exact B|exact T|].
  exists s3. split; [exact E|]. split; [|split].
  - unfold counters. rewrite (at_cc _ _ _ _ A3), (at_lc _ _ _ _ A3), (at_lp _ _ _ _ A3). reflexivity.
  - intros l2 D2. assert (S3 : sim f s3 (Inp (of_text u) false) 0).
    { constructor; [rewrite (at_file _ _ _ _ A3); symmetry; exact F|exact (at_wfc _ _ _ _ A3)|lia|exact (at_view _ _ _ _ A3)|exact (at_eof _ _ _ _ A3)]. }
    destruct (run_sim g f l2 _ _ _ D2 S3) as (d & X & _). exact X.
  - intros l2 r2 u2 C2 D2. pose proof (cursor_at g l2 [] u r2 u2 C2 r s3 0%nat D2 ltac:(lia) A3) as A4.
    unfold counters. rewrite (at_cc _ _ _ _ A4), (at_lc _ _ _ _ A4), (at_lp _ _ _ _ A4), <- rev_app_distr. apply is_pos_rev.
Qed.
Example C42_restore_ex : let s := snd (run text_file look (Init_Stream_Struct [97; 10; 98; 99] junk junk)) in
  let s2 := snd (run text_file [Get; Get; Get] s) in
  counters s2 = (4, 1, 3) /\ eof_reached s2 = true /\
  counters (snd (Set_Position text_file s2 SET 2 2 1 0)) = (2, 1, 0) /\ fst (Getc text_file (snd (Set_Position text_file s2 SET 2 2 1 0))) = Code 98.
Proof. vm_compute. repeat split. Qed.

(** set_stream_line_column/3 succeeds just when the text has that line and that column, and the stream is then there;
    when it fails the stream is as before but for the columns kept for putting back new lines. *)
Theorem C42_line_column : forall g s lc lp, bytes (file s) -> wf (pb_char s) -> wf (pb_line_pos s) -> 0 <= lc -> 0 <= lp ->
  exists b s', Set_Position_LC g s lc lp = Ret (b, s') /\
    (b = true <-> exists t, has_pos (file s) t lc lp) /\
    (b = true -> file s' = file s /\ eof_reached s' = false /\ exists t u, file s = t ++ u /\ is_pos t (counters s') /\ line_count s' = lc /\ line_pos s' = lp /\ (forall k, view s' k = of_text u k)) /\
    (b = false -> exists p, s' = with_pbl s p).
Proof.
  intros g s lc lp B Wc Wl L1 L2. destruct (set_lc_ok g s lc lp B Wc Wl L1 L2) as (b & s' & E & R). exists b, s'. split; [exact E|]. destruct b.
  - destruct R as (q & u & Hp & A & F & N). split; [split; [intros _; eauto|reflexivity]|]. split; [|discriminate]. intros _.
    split; [exact F|]. split; [exact (at_eof _ _ _ _ A)|]. exists (rev q), u. pose proof (at_file _ _ _ _ A) as AF. rewrite F in AF.
    destruct Hp as [_ Hp]. apply is_pos_iff in Hp. rewrite rev_involutive in Hp. destruct Hp as [Q1 Q2].
    pose proof (at_lc _ _ _ _ A) as Y1. pose proof (at_lp _ _ _ _ A) as Y2. pose proof (at_cc _ _ _ _ A) as Y3. cbn [app] in AF, Y1, Y2, Y3.
    split; [exact AF|]. split; [unfold counters; rewrite Y1, Y2, Y3; apply is_pos_rev|]. split; [congruence|]. split; [congruence|exact (at_view _ _ _ _ A)].
  - destruct R as (NE & p & ->). split; [split; [discriminate|intros X; contradiction]|]. split; [discriminate|]. intros _. eauto.
Qed.
Example C42_line_column_ex : let s := snd (run text_file [Get; Peek] (Init_Stream_Struct [97; 10; 98; 99; 10] junk junk)) in
  (match Set_Position_LC text_file s 1 2 with Ret (b, s') => b = true /\ counters s' = (4, 1, 2) /\ fst (Getc text_file s') = Code 10 | _ => False end) /\
  (match Set_Position_LC text_file s 1 3 with Ret (b, s') => b = false /\ counters s' = (1, 0, 1) /\ fst (Getc text_file s') = Code 10 | _ => False end).
Proof. vm_compute. repeat split. Qed.
(** These columns are lost: a failure between reading a new line and putting it back gives a wrong column. *)
Theorem C42_line_column_refuted : exists g f, bytes f /\
  let s := snd (run g [Get; Get; Get] (Init_Stream_Struct f junk junk)) in
  match Set_Position_LC g s 9 0 with
  | Ret (b, s') => b = false /\ counters (Ungetc s' 10) <> counters (Ungetc s 10)
  | _ => False end.
Proof. exists text_file, [97; 98; 10; 99; 10]. split; [repeat constructor; lia|]. vm_compute. split; [reflexivity|discriminate]. Qed.
(** seek/4: the next character read is the one at the offset from the start, from the offset of the file, or from the end;
    an offset before the start fails and leaves the stream as it is *)
Definition target (s : stm) (w : whence) (o : Z) : Z := o + match w with SET => 0 | CUR => Z.of_nat (off s) | END_ => Z.of_nat (length (file s)) end.
Theorem C42_seek : forall g s w o, (target s w o < 0 -> Seek g s w o = (false, s)) /\
  (0 <= target s w o -> exists s', Seek g s w o = (true, s') /\ file s' = file s /\ off s' = Z.to_nat (target s w o) /\
     fst (Getc g s') = Code (nth (Z.to_nat (target s w o)) (file s) EOF)).
Proof.
  intros g s w o. assert (T : CALL_SEEK s o w = if target s w o <? 0 then None else Some (with_off s (Z.to_nat (target s w o)))).
  { unfold CALL_SEEK, target. destruct w; [rewrite Z.add_0_r; reflexivity|rewrite (Z.add_comm o); reflexivity|rewrite (Z.add_comm o); reflexivity]. }
  unfold Seek, Set_Position. rewrite T. split; intros H; [destruct (Z.ltb_spec (target s w o) 0); [reflexivity|lia]|]. destruct (Z.ltb_spec (target s w o) 0); [lia|].
  eexists. split; [reflexivity|]. set (n := Z.to_nat (target s w o)).
  assert (G : forall g s', eof_reached s' = false -> nb (pb_char s') = 0%nat -> fst (Getc g s') = Code (nth (off s') (file s') EOF)).
  { intros g' s' E B. unfold Getc, Before_Reading. rewrite E. unfold PB_Is_Empty. rewrite B. cbn [Nat.eqb]. unfold CALL_GETC. destruct (nth_error (file s') (off s')) as [c|] eqn:N; [apply nth_error_nth with (d := EOF) in N; rewrite N|rewrite nth_overflow by (apply nth_error_None; exact N)]; reflexivity. }
  split; [destruct (is_text g); reflexivity|]. split; [destruct (is_text g); reflexivity|]. rewrite G; [|reflexivity|reflexivity]. destruct (is_text g); reflexivity.
Qed.
Example C42_seek_ex : let s := Init_Stream_Struct [97; 98; 99; 100] junk junk in target s END_ (-2) = 2 /\ fst (Getc text_file (snd (Seek text_file s END_ (-2)))) = Code 99.
Proof. vm_compute. split; reflexivity. Qed.
(** seek/4 relative to the current position forgets the peeked character without going back. *)
Theorem C42_seek_refuted : exists f, bytes f /\ let g := Prop_ EOF_CODE true false in
  let s := snd (run g [Get; Peek] (Init_Stream_Struct f junk junk)) in
  fst (fst (fst (Get_Position g s))) = 1 /\ fst (Seek g s CUR 0) = true /\ fst (fst (fst (Get_Position g (snd (Seek g s CUR 0))))) = 2.
Proof. exists [97; 98; 99]. split; [repeat constructor; lia|]. vm_compute. repeat split. Qed.

(** Writing any text to a string stream is memory safe, leaves the text and the final null in the buffer, and counts positions. *)
Theorem C42_write : forall l, bytes l -> Z.of_nat (length l) + 1024 < 2 ^ 31 ->
  exists s s', Puts New_Str_Stream l = Ret s /\ is_pos l (o_cc s, o_lc s, o_lp s) /\
    Terminate s = Ret s' /\ (forall i, (i < length l)%nat -> o_buf s' i = nth_error l i) /\ o_buf s' (length l) = Some 0.
Proof.
  intros l B L. destruct (puts_ok l [] New_Str_Stream out_new B) as (s & E & O); [cbn [length Nat.add]; exact L|]. rewrite app_nil_r in O.
  destruct (terminate_ok _ _ O) as (s' & E2 & T1 & T2). exists s, s'. split; [exact E|]. rewrite rev_length in *. rewrite rev_involutive in T2.
  split; [|split; [exact E2|split; [exact T2|exact T1]]].
  rewrite (ou_cc _ _ O), (ou_lc _ _ O), (ou_lp _ _ O). pose proof (is_pos_rev (rev l)) as P. rewrite rev_involutive in P. exact P.
Qed.
Example C42_write_ex : bytes [97; 10; 98; 99] /\
  match Puts New_Str_Stream [97; 10; 98; 99] with Ret s => (o_cc s, o_lc s, o_lp s) = (4, 1, 2) | _ => False end.
Proof. split; [repeat constructor; lia|vm_compute; reflexivity]. Qed.

(** ** C56: Pl_Stream_Gets reads one line, and stays in the array just when the line is shorter than its size *)
Theorem C56_gets_partial : forall g f b1 b2 l r u size, bytes f -> cursor l [] f r u -> put_back l 0 ->
  let s := snd (run g l (Init_Stream_Struct f b1 b2)) in
  if Nat.ltb (length (first_line u)) size
  then exists s', Gets g s size = Ret (match first_line u with [] => None | x => Some (x ++ [0]) end, s')
  else Gets g s size = UB.
Proof.
  intros g f b1 b2 l r u size B C D s. pose proof (cursor_at g l [] f r u C [] (Init_Stream_Struct f b1 b2) 0%nat D (le_n 0) (init_at f b1 b2 B)) as A.
  exact (gets_loop_ok g [] size size u r s [] A ltac:(cbn [length]; lia)).
Qed.
Example C56_gets_ex : match Gets text_file (Init_Stream_Struct [97; 98; 10; 99] junk junk) 4 with Ret (o, _) => o = Some [97; 98; 10; 0] | _ => False end.
Proof. vm_compute. reflexivity. Qed.
(** The callers give the size of the array (char str[80], debugger_c.c:363,385,1009,1019): a line of 80 characters writes the final null after it. *)
Theorem C56_gets_refuted : exists g f, bytes f /\ Gets g (Init_Stream_Struct f junk junk) 80 = UB.
Proof. exists text_file, (repeat 97 80). split; [cbn [repeat]; repeat constructor; lia|vm_compute; reflexivity]. Qed.

Print Assumptions C41_content.
Print Assumptions C41_nine_refuted.
Print Assumptions C41_peek.
Print Assumptions C41_at_end.
Print Assumptions C41_position.
Print Assumptions C41_unget_end_refuted.
Print Assumptions C42_position_partial.
Print Assumptions C42_peek_end_refuted.
Print Assumptions C42_end_refuted.
Print Assumptions C42_restore_partial.
Print Assumptions C42_line_column.
Print Assumptions C42_line_column_refuted.
Print Assumptions C42_seek.
Print Assumptions C42_seek_refuted.
Print Assumptions C42_write.
Print Assumptions C56_gets_partial.
Print Assumptions C56_gets_refuted.
