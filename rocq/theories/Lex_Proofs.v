(** Proofs for Props_Lex: reading one token. *)
Require Import ZArith List Bool Lia.
Require Import Verif.Heap_Model Verif.Lex_Model Verif.Write_Model Verif.Lex_Spec.
Import ListNotations.
Open Scope Z_scope.

(** * Characters *)

Lemma ascii_all : forall f : Z -> bool,
  forallb f (map Z.of_nat (seq 0 128)) = true -> forall c, 0 <= c < 128 -> f c = true.
Proof.
  intros f F c B. rewrite forallb_forall in F. apply F. apply in_map_iff. exists (Z.to_nat c).
  split; [lia|]. apply in_seq. lia.
Qed.

Definition tabc (c : Z) : ctype := nth (Z.to_nat c) char_type_table LA.
Lemma char_type_ascii : forall e c, c < 128 -> char_type e c = tabc c.
Proof. intros e c B. unfold char_type. destruct (Z.ltb_spec c 128); [reflexivity|lia]. Qed.
Lemma char_type_ext : forall e c, 128 <= c ->
  char_type e c = SL \/ char_type e c = CL \/ char_type e c = EX.
Proof.
  intros e c B. unfold char_type. destruct (Z.ltb_spec c 128); [lia|].
  destruct (lower e c); [auto|]. destruct (upper e c); auto.
Qed.

(** a boolean property of the ascii characters and their types *)
Lemma ascii_type : forall (e : env) (f : Z -> ctype -> bool),
  forallb (fun c => f c (tabc c)) (map Z.of_nat (seq 0 128)) = true ->
  forall c, 0 <= c < 128 -> f c (char_type e c) = true.
Proof. intros e f F c B. rewrite char_type_ascii by lia. apply (ascii_all (fun c => f c (tabc c)) F c B). Qed.

Lemma ty_char : forall e c, 0 <= c -> ty e c = char_type e c.
Proof. intros e c B. unfold ty. destruct (Z.eqb_spec c (-1)); [lia|reflexivity]. Qed.

(** * The input *)

Lemma read_unget : forall e cv i, (forall c, In c i -> 0 <= c) ->
  unget (c_orig (Read_Next_Char e cv i)) (inp (Read_Next_Char e cv i)) = i.
Proof.
  intros e cv [|x r] B; [reflexivity|]. cbn. unfold unget.
  destruct (Z.eqb_spec x (-1)) as [->|]; [|reflexivity]. specialize (B (-1) (or_introl eq_refl)). lia.
Qed.

Definition nonneg (i : list Z) : Prop := Forall (fun c => 0 <= c) i.
Lemma read_unget' : forall e cv i, nonneg i ->
  unget (c_orig (Read_Next_Char e cv i)) (inp (Read_Next_Char e cv i)) = i.
Proof. intros e cv i B. apply read_unget. apply Forall_forall. exact B. Qed.

(** the type of the next character does not satisfy p *)
Definition next_not (e : env) (p : ctype -> bool) (i : list Z) : Prop :=
  match i with [] => True | x :: _ => p (ty e x) = false end.

Lemma push_ok : forall b c, Z.of_nat (length b) < 1048576 -> push b c = Ret (c :: b).
Proof. intros b c B. unfold push. change LEXER_BIG_BUFFER with 1048576. destruct (Z.ltb_spec (Z.of_nat (length b)) 1048576); [reflexivity|lia]. Qed.
Lemma close_ok : forall b, Z.of_nat (length b) < 1048576 -> close b = Ret (rev b).
Proof. intros b B. unfold close. change LEXER_BIG_BUFFER with 1048576. destruct (Z.ltb_spec (Z.of_nat (length b)) 1048576); [reflexivity|lia]. Qed.

Lemma push_while_run : forall e p, no_conv e -> forall s c b i,
  Forall (fun x => p (ty e x) = true) s -> next_not e p i ->
  Z.of_nat (length b + length s) < 1048576 ->
  push_while e p (s ++ i) c b = Ret (rev s ++ c :: b, Read_Next_Char e true i).
Proof.
  intros e p NC. induction s as [|x s IH]; intros c b i F N B.
  - cbn [app rev]. destruct i as [|x r]; cbn [push_while]; rewrite push_ok by (cbn [length] in B; lia); cbn [bind].
    + reflexivity.
    + cbn [next_not] in N. rewrite NC, N. cbn [Read_Next_Char conv_if]. rewrite NC. reflexivity.
  - cbn [app push_while]. rewrite push_ok by lia. cbn [bind]. inversion F as [|? ? F1 F2]; subst.
    rewrite NC, F1. rewrite IH; [|exact F2|exact N|cbn [length] in B |- *; lia].
    cbn [rev]. rewrite <- app_assoc. reflexivity.
Qed.

Lemma while_push_run : forall e p, no_conv e -> forall s b i,
  p C0 = false -> Forall (fun x => p (ty e x) = true) s -> next_not e p i ->
  Z.of_nat (length b + length s) < 1048576 ->
  while_push e p (Read_Next_Char e true (s ++ i)) b = Ret (rev s ++ b, Read_Next_Char e true i).
Proof.
  intros e p NC [|x s] b i P0 F N B; unfold while_push.
  - cbn [app rev]. destruct i as [|x r]; cbn [Read_Next_Char cur inp conv_if].
    + change (ty e (-1)) with C0. rewrite P0. reflexivity.
    + rewrite NC. cbn [next_not] in N. rewrite N. reflexivity.
  - cbn [app Read_Next_Char cur inp conv_if]. rewrite NC. inversion F as [|? ? F1 F2]; subst. rewrite F1.
    rewrite push_while_run by (try assumption; cbn [length] in B; lia).
    cbn [rev]. rewrite <- app_assoc. reflexivity.
Qed.

Lemma skip_one : forall e i c before, no_conv e -> is_LA (ty e c) = false ->
  skip_layout e (c :: i) before = (before, Scan i c c).
Proof. intros e i c before NC T. cbn [skip_layout]. rewrite NC, T. reflexivity. Qed.
Lemma skip_space : forall e i before, no_conv e -> skip_layout e (32 :: i) before = skip_layout e i true.
Proof. intros e i before NC. cbn [skip_layout]. rewrite NC. reflexivity. Qed.

(** * Names *)

Lemma lex_identifier : forall fuel e cp before c s i, no_conv e ->
  0 <= c -> char_type e c = SL -> Forall (fun x => alnum (ty e x) = true) s -> next_not e alnum i -> nonneg i ->
  Z.of_nat (length (c :: s)) < 1048576 ->
  lexer_token (S fuel) e cp before (c :: s ++ i) = Ret (TokName (c :: s) false, false, i).
Proof.
  intros fuel e cp before c s i NC C0 T F N NN B. cbn [lexer_token].
  rewrite skip_one by (try assumption; rewrite ty_char by lia; rewrite T; reflexivity).
  cbn [cur inp c_orig]. destruct (Z.eqb_spec c (-1)); [lia|].
  rewrite (ty_char e c) by lia. rewrite T.
  rewrite push_while_run by (try assumption; cbn [length] in B |- *; lia). cbn [bind].
  rewrite close_ok; [|rewrite app_length, rev_length; cbn [length] in B |- *; lia]. cbn [bind].
  rewrite rev_app_distr. cbn [rev app]. rewrite rev_involutive. rewrite read_unget' by exact NN. reflexivity.
Qed.

Lemma lex_variable : forall fuel e cp before s i, no_conv e ->
  Forall (fun x => alnum (ty e x) = true) s -> next_not e alnum i -> nonneg i ->
  Z.of_nat (length (95 :: s)) < 1048576 ->
  lexer_token (S fuel) e cp before (95 :: s ++ i) = Ret (TokVar (95 :: s), false, i).
Proof.
  intros fuel e cp before s i NC F N NN B. cbn [lexer_token].
  rewrite skip_one by (try assumption; reflexivity).
  cbn [cur inp c_orig]. change (95 =? -1) with false. change (ty e 95) with UL. cbv iota.
  rewrite push_while_run by (try assumption; cbn [length] in B |- *; lia). cbn [bind].
  rewrite close_ok; [|rewrite app_length, rev_length; cbn [length] in B |- *; lia]. cbn [bind].
  rewrite rev_app_distr. cbn [rev app]. rewrite rev_involutive. rewrite read_unget' by exact NN. reflexivity.
Qed.

Lemma lex_graphic : forall fuel e cp before c s i, no_conv e ->
  0 <= c -> char_type e c = GR -> Forall (fun x => is_GR (ty e x) = true) s -> next_not e is_GR i -> nonneg i ->
  Z.of_nat (length (c :: s)) < 1048576 ->
  (c :: s <> [46]) -> (c = 47 -> hd 0 s <> 42) ->
  lexer_token (S fuel) e cp before (c :: s ++ i) = Ret (TokName (c :: s) false, false, i).
Proof.
  intros fuel e cp before c s i NC P0 T F N NN B D K. cbn [lexer_token].
  rewrite skip_one by (try assumption; rewrite ty_char by lia; rewrite T; reflexivity).
  cbn [cur inp c_orig]. destruct (Z.eqb_spec c (-1)); [lia|].
  rewrite (ty_char e c) by lia. rewrite T.
  assert (E1 : (c =? 46) && ((cur (Read_Next_Char e true (s ++ i)) =? -1)
       || layout_or_comment (ty e (cur (Read_Next_Char e true (s ++ i))))) = false).
  { destruct (Z.eqb_spec c 46) as [->|]; [|reflexivity]. cbn [andb].
    destruct s as [|x s]; [congruence|]. cbn [app Read_Next_Char cur conv_if]. rewrite NC.
    inversion F as [|? ? F1 F2]; subst. destruct (Z.eqb_spec x (-1)) as [->|]; [discriminate F1|].
    destruct (ty e x); try discriminate F1. reflexivity. }
  rewrite E1.
  assert (E2 : (c =? 47) && (cur (Read_Next_Char e true (s ++ i)) =? 42) = false).
  { destruct (Z.eqb_spec c 47) as [->|]; [|reflexivity]. cbn [andb]. specialize (K eq_refl).
    destruct s as [|x s].
    - cbn [app]. destruct i as [|x r]; [reflexivity|]. cbn [Read_Next_Char cur conv_if]. rewrite NC.
      cbn [next_not] in N. destruct (Z.eqb_spec x 42) as [->|]; [discriminate N|reflexivity].
    - cbn [app Read_Next_Char cur conv_if]. rewrite NC. cbn [hd] in K. destruct (Z.eqb_spec x 42); congruence. }
  rewrite E2. rewrite push_ok by (cbn [length]; lia). cbn [bind].
  rewrite while_push_run by (try assumption; try reflexivity; cbn [length] in B |- *; lia). cbn [bind].
  rewrite close_ok; [|rewrite app_length, rev_length; cbn [length] in B |- *; lia]. cbn [bind].
  rewrite rev_app_distr. cbn [rev app]. rewrite rev_involutive. rewrite read_unget' by exact NN. reflexivity.
Qed.

Lemma lex_solo : forall fuel e cp before c i, no_conv e ->
  (c = 33 \/ c = 59) -> lexer_token (S fuel) e cp before (c :: i) = Ret (TokName [c] false, false, i).
Proof.
  intros fuel e cp before c i NC [-> | ->]; cbn [lexer_token];
    (rewrite skip_one by (try assumption; reflexivity)); reflexivity.
Qed.

Lemma lex_punct : forall fuel e before c i, no_conv e ->
  punct c = true ->
  lexer_token (S fuel) e true before (c :: i) =
  Ret (if (c =? 40) && negb before then TokOpen else TokPunct c, false, i).
Proof.
  intros fuel e before c i NC P. unfold punct in P. rewrite existsb_exists in P. destruct P as (x & Hx & E).
  apply Z.eqb_eq in E. subst x. cbn [In] in Hx.
  repeat destruct Hx as [<-|Hx]; try contradiction; cbn [lexer_token];
    (rewrite skip_one by (try assumption; reflexivity)); try reflexivity.
  destruct before; reflexivity.
Qed.
Lemma lex_punct' : forall fuel e cp before c i, no_conv e ->
  punct c = true -> c <> 44 ->
  lexer_token (S fuel) e cp before (c :: i) =
  Ret (if (c =? 40) && negb before then TokOpen else TokPunct c, false, i).
Proof.
  intros fuel e cp before c i NC P N. unfold punct in P. rewrite existsb_exists in P. destruct P as (x & Hx & E).
  apply Z.eqb_eq in E. subst x. cbn [In] in Hx.
  repeat destruct Hx as [<-|Hx]; try contradiction; try congruence; cbn [lexer_token];
    (rewrite skip_one by (try assumption; reflexivity)); try reflexivity.
  destruct before; reflexivity.
Qed.

(** * Quoted names *)

(** the text of one character in a quoted atom *)
Definition char_text (pr : Z -> bool) (c : Z) : list Z :=
  match strchr escape_char c with
  | Some k => [92; nth (Z.to_nat k) escape_symbol 0]
  | None => if (c =? 39) || (c =? 92) then [c; c]
            else if negb (isprint pr c) then hex_escape c else [c]
  end.

Lemma strchr_hex : forall d, 0 <= d < 16 -> strchr hex_digits (hex_digit d) = Some d.
Proof.
  intros d B.
  assert (F : forallb (fun d => match strchr hex_digits (hex_digit d) with Some k => k =? d | None => false end)
                (map Z.of_nat (seq 0 16)) = true) by (vm_compute; reflexivity).
  rewrite forallb_forall in F.
  assert (I1 : In d (map Z.of_nat (seq 0 16))).
  { apply in_map_iff. exists (Z.to_nat d). split; [lia|]. apply in_seq. lia. }
  specialize (F d I1). cbv beta in F. destruct (strchr hex_digits (hex_digit d)) as [k|]; [|discriminate F].
  apply Z.eqb_eq in F. subst k. reflexivity.
Qed.

Lemma radix_step : forall e f i co c x k y r, strchr f c = Some k -> k < 16 ->
  (INT_MIN <=? x * 16 + k) && (x * 16 + k <=? INT_MAX) = true -> i = y :: r ->
  radix_loop e false f 16 i co c x = radix_loop e false f 16 r y y (x * 16 + k).
Proof.
  intros e f i co c x k y r E K R ->. cbn [radix_loop]. rewrite E.
  destruct (Z.leb_spec 16 k); [lia|]. cbv zeta. rewrite R. reflexivity.
Qed.
Lemma radix_stop : forall e i co x, radix_loop e false hex_digits 16 i co 92 x = Ret (x, Scan i co 92).
Proof. intros e [|y r] co x; reflexivity. Qed.

Lemma lex_hex : forall e c err i, 1 <= c <= 255 ->
  exists s, Lexer_Quoted_Char e false 39 false err (hex_escape c ++ i) = Ret (QChar c, err, s) /\ inp s = i.
Proof.
  intros e c err i B.
  assert (V : Is_Valid_Code c = true) by (unfold Is_Valid_Code; apply andb_true_iff; lia).
  assert (INTB : forall x, 0 <= x <= 255 -> (INT_MIN <=? x) && (x <=? INT_MAX) = true).
  { intros x Bx. unfold INT_MIN, INT_MAX. apply andb_true_iff. split; apply Z.leb_le; lia. }
  unfold hex_escape. destruct (Z.ltb_spec c 16) as [L|L].
  - cbn [app]. unfold Lexer_Quoted_Char. cbn [Read_Next_Char conv_if cur inp c_orig Z.eqb Pos.eqb negb orb andb].
    change (strchr [92; 39; 34; 96] 120) with (@None Z). change (strchr escape_symbol 120) with (@None Z).
    change (120 =? 115) with false. change (120 =? 101) with false. rewrite !andb_false_r.
    change ((48 <=? 120) && (120 <=? 55)) with false. cbn [orb].
    rewrite (radix_step e hex_digits _ _ _ _ c 92 i); [|apply strchr_hex; lia|lia|apply INTB; lia|reflexivity].
    rewrite radix_stop. cbn [bind]. change (0 * 16 + c) with c. rewrite V. cbn [cur Z.eqb Pos.eqb andb].
    eexists. split; reflexivity.
  - cbn [app]. unfold Lexer_Quoted_Char. cbn [Read_Next_Char conv_if cur inp c_orig Z.eqb Pos.eqb negb orb andb].
    change (strchr [92; 39; 34; 96] 120) with (@None Z). change (strchr escape_symbol 120) with (@None Z).
    change (120 =? 115) with false. change (120 =? 101) with false. rewrite !andb_false_r.
    change ((48 <=? 120) && (120 <=? 55)) with false. cbn [orb].
    assert (D1 : 0 <= c / 16 < 16) by (split; [apply Z.div_pos; lia|apply Z.div_lt_upper_bound; lia]).
    pose proof (Z.mod_pos_bound c 16 ltac:(lia)) as D2. pose proof (Z.div_mod c 16 ltac:(lia)) as D3.
    rewrite (radix_step e hex_digits _ _ _ _ (c / 16) (hex_digit (c mod 16)) (92 :: i));
      [|apply strchr_hex; lia|lia|apply INTB; lia|reflexivity].
    rewrite (radix_step e hex_digits _ _ _ _ (c mod 16) 92 i);
      [|apply strchr_hex; lia|lia|apply INTB; lia|reflexivity].
    rewrite radix_stop. cbn [bind]. replace ((0 * 16 + c / 16) * 16 + c mod 16) with c by lia.
    rewrite V. cbn [cur Z.eqb Pos.eqb andb]. eexists. split; reflexivity.
Qed.

Lemma lex_plain : forall e c err i, 0 <= c -> c <> 39 -> c <> 10 -> c <> 9 -> c <> 92 ->
  exists s, Lexer_Quoted_Char e false 39 false err (c :: i) = Ret (QChar c, err, s) /\ inp s = i.
Proof.
  intros e c err i B N1 N2 N3 N4. unfold Lexer_Quoted_Char. cbn [Read_Next_Char conv_if cur inp c_orig].
  destruct (Z.eqb_spec c 39); [lia|]. destruct (Z.eqb_spec c (-1)); [lia|].
  destruct (Z.eqb_spec c 10); [lia|]. destruct (Z.eqb_spec c 9); [lia|].
  destruct (Z.eqb_spec c 92); [lia|]. eexists. split; reflexivity.
Qed.

Lemma escape_cases : forall c k, 1 <= c <= 255 -> strchr escape_char c = Some k ->
  (c = 7 /\ k = 0) \/ (c = 8 /\ k = 1) \/ (c = 12 /\ k = 2) \/ (c = 10 /\ k = 3) \/
  (c = 13 /\ k = 4) \/ (c = 9 /\ k = 5) \/ (c = 11 /\ k = 6).
Proof.
  intros c k B E. unfold strchr, escape_char in E. rewrite Z.mod_small in E by lia. cbn [app index_of] in E.
  repeat match type of E with (if ?x =? c then _ else _) = _ => destruct (Z.eqb_spec x c) as [<-|]; [injection E as <-; tauto|] end.
  destruct (Z.eqb_spec 0 c); [lia|discriminate E].
Qed.

Lemma lex_quoted_char : forall e pr c err i, 1 <= c <= 255 ->
  exists s, Lexer_Quoted_Char e false 39 false err (char_text pr c ++ i) = Ret (QChar c, err, s) /\ inp s = i.
Proof.
  intros e pr c err i B. unfold char_text. destruct (strchr escape_char c) as [k|] eqn:E.
  - apply escape_cases in E; [|exact B].
    repeat destruct E as [[-> ->]|E]; [..|destruct E as [-> ->]]; eexists; split; reflexivity.
  - destruct (Z.eqb_spec c 39) as [->|N1]; [eexists; split; reflexivity|].
    destruct (Z.eqb_spec c 92) as [->|N2]; [eexists; split; reflexivity|]. cbn [orb].
    destruct (isprint pr c); cbn [negb].
    + apply lex_plain; try lia; intros ->; discriminate E.
    + apply lex_hex. exact B.
Qed.

(** the loop; [f] is the text of a character *)
Lemma quoted_loop_run : forall e mk (f : Z -> list Z),
  forall s i b fuel,
  Forall (fun c => forall i, exists st, Lexer_Quoted_Char e false 39 false false (f c ++ i) = Ret (QChar c, false, st) /\ inp st = i) s ->
  (match i with [] => True | x :: _ => x <> 39 end) ->
  Z.of_nat (length b + length s) < 1048576 -> (length s < fuel)%nat ->
  quoted_loop fuel e false 39 false mk false false (flat_map f s ++ 39 :: i) b =
  Ret (mk (rev b ++ s), false, i).
Proof.
  intros e mk f. induction s as [|c s IH]; intros i b fuel F N B FU; (destruct fuel as [|fuel]; [cbn in FU; lia|]).
  - cbn [flat_map app quoted_loop]. unfold Lexer_Quoted_Char. cbn [Read_Next_Char conv_if cur inp Z.eqb Pos.eqb].
    assert (P : (Peek_Char e false i =? 39) = false).
    { destruct i as [|x r]; [reflexivity|]. cbn. apply Z.eqb_neq. exact N. }
    rewrite P. cbn [bind]. rewrite close_ok by (cbn [length] in B; lia). cbn [bind].
    rewrite app_nil_r. reflexivity.
  - cbn [flat_map]. rewrite <- app_assoc. cbn [quoted_loop]. inversion F as [|? ? F1 F2]; subst.
    destruct (F1 (flat_map f s ++ 39 :: i)) as (st & E & I1). rewrite E. cbn [bind]. rewrite I1.
    rewrite push_ok by (cbn [length] in B; lia). cbn [bind].
    rewrite IH; [|exact F2|exact N|cbn [length] in B |- *; lia|cbn [length] in FU; lia].
    cbn [rev]. rewrite <- app_assoc. reflexivity.
Qed.

Lemma flat_len : forall (f : Z -> list Z) s, Forall (fun c => (1 <= length (f c))%nat) s ->
  (length s <= length (flat_map f s))%nat.
Proof.
  intros f. induction s as [|c s IH]; intros F; [cbn; lia|]. inversion F; subst.
  cbn [flat_map]. rewrite app_length. cbn [length]. specialize (IH ltac:(assumption)). lia.
Qed.

Lemma lex_quoted : forall fuel e cp before (f : Z -> list Z) s i, conv e 39 = 39 ->
  Forall (fun c => forall i, exists st, Lexer_Quoted_Char e false 39 false false (f c ++ i) = Ret (QChar c, false, st) /\ inp st = i) s ->
  Forall (fun c => (1 <= length (f c))%nat) s ->
  (match i with [] => True | x :: _ => x <> 39 end) -> Z.of_nat (length s) < 1048576 ->
  lexer_token (S fuel) e cp before (39 :: flat_map f s ++ 39 :: i) = Ret (TokName s true, false, i).
Proof.
  intros fuel e cp before f s i CV F L N B. cbn [lexer_token skip_layout]. rewrite CV.
  change (is_LA (ty e 39)) with false. cbv iota. cbn [cur inp c_orig]. change (39 =? -1) with false.
  change (ty e 39) with QT. cbv iota. unfold Lexer_Quoted. change (ty e 39) with QT. cbv iota.
  change (negb (39 =? 39)) with false.
  rewrite (quoted_loop_run e (fun s => TokName s true) f); [reflexivity|exact F|exact N|cbn [length]; lia|].
  pose proof (flat_len f s L). rewrite app_length. lia.
Qed.

(** * Numbers *)

Lemma digits_value_app : forall base s x c, digits_value base x (s ++ [c]) = digits_value base x s * base + digit_value c.
Proof. intros base. induction s as [|d s IH]; intros x c; [reflexivity|]. cbn [app digits_value]. apply IH. Qed.

Lemma dec_digits_app : forall fuel n acc, dec_digits fuel n acc = dec_digits fuel n [] ++ acc.
Proof.
  induction fuel as [|fuel IH]; intros n acc; [reflexivity|]. cbn [dec_digits].
  destruct (n <? 10); [reflexivity|]. rewrite IH. rewrite (IH _ [_]). rewrite <- app_assoc. reflexivity.
Qed.

(** the digits of n *)
Lemma dec_spec : forall fuel n, 0 <= n < 10 ^ Z.of_nat fuel -> (fuel <> O) ->
  Forall (fun c => 48 <= c <= 57) (dec_digits fuel n []) /\ dec_digits fuel n [] <> [] /\
  (hd 0 (dec_digits fuel n []) = 48 -> n = 0) /\ (n = 0 -> dec_digits fuel n [] = [48]) /\
  digits_value 10 0 (dec_digits fuel n []) = n /\ (length (dec_digits fuel n []) <= fuel)%nat.
Proof.
  induction fuel as [|fuel IH]; intros n B NF; [congruence|]. cbn [dec_digits].
  pose proof (Z.mod_pos_bound n 10 ltac:(lia)) as M.
  destruct (Z.ltb_spec n 10) as [L|L].
  - rewrite Z.mod_small by lia. split; [|split; [|split; [|split; [|split]]]].
    + constructor; [lia|constructor].
    + discriminate.
    + cbn [hd]. lia.
    + intros ->. reflexivity.
    + cbn [digits_value]. unfold digit_value. destruct (Z.leb_spec (48 + n) 57); lia.
    + cbn. lia.
  - destruct fuel as [|fuel]; [change (10 ^ Z.of_nat 1) with 10 in B; lia|].
    assert (B' : 0 <= n / 10 < 10 ^ Z.of_nat (S fuel)).
    { split; [apply Z.div_pos; lia|]. apply Z.div_lt_upper_bound; [lia|].
      replace (Z.of_nat (S (S fuel))) with (Z.succ (Z.of_nat (S fuel))) in B by lia. rewrite Z.pow_succ_r in B by lia. lia. }
    destruct (IH (n / 10) B' ltac:(discriminate)) as (A1 & A2 & A3 & A4 & A5 & A6).
    rewrite dec_digits_app. set (d := dec_digits (S fuel) (n / 10) []) in *.
    split; [|split; [|split; [|split; [|split]]]].
    + apply Forall_app. split; [exact A1|]. constructor; [lia|constructor].
    + intros Q. apply app_eq_nil in Q. destruct Q; discriminate.
    + destruct d as [|x d']; [congruence|]. cbn [hd app]. intros Q. cbn [hd] in A3. specialize (A3 Q).
      pose proof (Z.div_mod n 10 ltac:(lia)). exfalso. assert (1 <= n / 10) by (apply Z.div_le_lower_bound; lia). lia.
    + lia.
    + rewrite digits_value_app, A5. unfold digit_value. destruct (Z.leb_spec (48 + n mod 10) 57); [|lia].
      pose proof (Z.div_mod n 10 ltac:(lia)). lia.
    + rewrite app_length. cbn [length]. lia.
Qed.

Lemma digits_fold : forall s x, Forall (fun c => 48 <= c <= 57) s ->
  digits_value 10 x s = fold_left (fun x c => x * 10 + (c - 48)) s x.
Proof.
  induction s as [|c s IH]; intros x F; [reflexivity|]. inversion F; subst. cbn [digits_value fold_left].
  unfold digit_value. destruct (Z.leb_spec c 57); [|lia]. apply IH. assumption.
Qed.

Lemma dec_decimal : forall n, 0 <= n < 2 ^ 61 -> decimal (dec n) n /\ (length (dec n) <= 20)%nat /\ (n = 0 -> dec n = [48]).
Proof.
  intros n B. unfold dec. destruct (Z.ltb_spec n 0); [lia|].
  assert (B20 : 0 <= n < 10 ^ Z.of_nat 20).
  { change (10 ^ Z.of_nat 20) with 100000000000000000000. change (2 ^ 61) with 2305843009213693952 in B. lia. }
  destruct (dec_spec 20 n B20 (fun Q => O_S 19 (eq_sym Q))) as (A1 & A2 & A3 & A4 & A5 & A6).
  split; [|split; [exact A6|exact A4]]. split; [exact A1|]. split; [exact A2|]. split.
  - intros Q. apply A4. auto.
  - rewrite <- digits_fold by exact A1. exact A5.
Qed.

Lemma digit_type : forall e c, 48 <= c <= 57 -> char_type e c = DI.
Proof.
  intros e c B.
  pose proof (ascii_type e (fun c t => negb ((48 <=? c) && (c <=? 57)) || is_DI t) ltac:(vm_compute; reflexivity) c ltac:(lia)) as T.
  cbv beta in T. destruct (Z.leb_spec 48 c); [|lia]. destruct (Z.leb_spec c 57); [|lia]. cbn in T.
  destruct (char_type e c); try discriminate T. reflexivity.
Qed.

Lemma lex_number : forall fuel e cp before n s i, no_conv e -> 0 <= n < 2 ^ 61 ->
  decimal s n -> (length s <= 20)%nat -> next_not e is_DI i -> nonneg i ->
  (match i with [] => True | x :: r => (x <> 46 \/ isdigit (Peek_Char e true r) = false) /\ (n = 0 -> 0 < x < 256 /\ x <> 39 /\ x <> 98 /\ x <> 111 /\ x <> 120) end) ->
  lexer_token (S fuel) e cp before (s ++ i) = Ret (TokInt n, false, i).
Proof.
  intros fuel e cp before n s i NC Bn (F & NE & Z0 & V) L N NN R. destruct s as [|c s]; [congruence|].
  pose proof (Forall_inv F) as F1. pose proof (Forall_inv_tail F) as F2. cbv beta in F1. cbn [app lexer_token].
  rewrite skip_one by (try assumption; rewrite ty_char, digit_type by lia; reflexivity).
  cbn [cur inp c_orig]. destruct (Z.eqb_spec c (-1)); [lia|]. rewrite (ty_char e c), digit_type by lia.
  unfold Lexer_Number.
  rewrite push_while_run; [|exact NC| |exact N|cbn [length] in L |- *; lia].
  2:{ eapply Forall_impl; [|exact F2]. intros x Bx. cbv beta in Bx |- *. rewrite ty_char, digit_type by lia. reflexivity. }
  cbn [bind].
  assert (Q46 : (cur (Read_Next_Char e true i) =? 46) && isdigit (Peek_Char e true (inp (Read_Next_Char e true i))) = false).
  { destruct i as [|x r]; [reflexivity|]. cbn [Read_Next_Char cur inp conv_if]. rewrite NC. destruct R as [[R|R] _].
    - apply Z.eqb_neq in R. rewrite R. reflexivity.
    - rewrite R. apply andb_false_r. }
  rewrite Q46. rewrite close_ok; [|rewrite app_length, rev_length; cbn [length] in L |- *; lia].
  cbn [bind]. rewrite rev_app_distr. cbn [rev app]. rewrite rev_involutive.
  unfold strtol. rewrite (digits_fold (c :: s)) by exact F. rewrite V. rewrite Z.min_l by lia.
  rewrite read_unget' by exact NN.
  assert (Q : negb (Z.of_nat (length (rev s ++ [c])) =? 1) || negb (n =? 0) ||
     match strchr [39; 98; 111; 120] (cur (Read_Next_Char e true i)) with Some _ => false | None => true end = true).
  { destruct (Z.eqb_spec n 0) as [E0|]; [|cbn [negb]; rewrite orb_true_r; reflexivity].
    destruct i as [|x r].
    - cbn [Read_Next_Char cur]. change (strchr [39; 98; 111; 120] (-1)) with (@None Z). apply orb_true_r.
    - cbn [Read_Next_Char cur conv_if]. rewrite NC. destruct R as [_ R]. specialize (R E0).
      unfold strchr. rewrite Z.mod_small by lia. cbn [app index_of].
      destruct (Z.eqb_spec 39 x); [lia|]. destruct (Z.eqb_spec 98 x); [lia|]. destruct (Z.eqb_spec 111 x); [lia|].
      destruct (Z.eqb_spec 120 x); [lia|]. destruct (Z.eqb_spec 0 x); [lia|]. apply orb_true_r. }
  rewrite Q. reflexivity.
Qed.
