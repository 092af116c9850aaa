(** Proofs for Props_Lex: the text written, and reading it back token by token. *)
Require Import ZArith List Bool Lia.
Require Import Verif.Heap_Model Verif.Lex_Model Verif.Write_Model Verif.Lex_Spec Verif.Lex_Proofs.
Import ListNotations.
Open Scope Z_scope.

(** * The text *)

(** a space is never pending before a token that needs one *)
Definition wok (st : wst) : Prop := last_is_space st = true -> last_writing st = W_NOTHING.

(** the space put before a text beginning with c *)
Definition lead (e : env) (st : wst) (c : Z) : list Z :=
  if space_needed e (last_writing st) c then [32] else [].

Lemma Out_String_text : forall e t st, wok st ->
  Out_String e t st = (lead e st (hd 0 t) ++ t, Wst W_NOTHING false).
Proof.
  intros e t [w sp] OK. unfold Out_String, lead, seqw, Emit_Space_If_Needed, Out_Space, set_last, puts.
  unfold wok in OK. cbn [last_writing last_is_space] in *.
  destruct (space_needed e w (hd 0 t)) eqn:E; [|reflexivity].
  cbn [last_writing last_is_space seqw]. destruct sp; [|reflexivity].
  rewrite OK in E by reflexivity. discriminate E.
Qed.
Lemma Out_Char_text : forall e c st, wok st ->
  Out_Char e c st = (lead e st c ++ [c], Wst W_NOTHING false).
Proof. intros e c st OK. apply (Out_String_text e [c] st OK). Qed.

Definition st0 : wst := Wst W_NOTHING false.
Lemma wok0 : wok st0. Proof. intros H. discriminate H. Qed.
Lemma wok_false : forall w, wok (Wst w false). Proof. intros w H. discriminate H. Qed.

Lemma show_char_text : forall e pr c, show_char e pr c st0 = (char_text pr c, st0).
Proof.
  intros e pr c. unfold show_char, char_text. destruct (strchr escape_char c) as [k|].
  - unfold seqw. rewrite Out_Char_text by apply wok0. change (Wst W_NOTHING false) with st0. rewrite Out_Char_text by apply wok0. reflexivity.
  - destruct ((c =? 39) || (c =? 92)).
    + unfold seqw. rewrite Out_Char_text by apply wok0. change (Wst W_NOTHING false) with st0. rewrite Out_Char_text by apply wok0. reflexivity.
    + destruct (negb (isprint pr c)); [rewrite Out_String_text by apply wok0|rewrite Out_Char_text by apply wok0]; reflexivity.
Qed.
Lemma show_chars_text : forall e pr s, show_chars e pr s st0 = (flat_map (char_text pr) s, st0).
Proof.
  intros e pr. induction s as [|c s IH]; [reflexivity|]. cbn [show_chars flat_map]. unfold seqw.
  rewrite show_char_text, IH. reflexivity.
Qed.

(** the text of a character in a quoted atom *)
Definition qtext (e : env) (pr : Z -> bool) (s : list Z) : Z -> list Z :=
  if needs_scan (atom_prop e s) then char_text pr else fun c => [c].
Definition atom_body (e : env) (pr : Z -> bool) (s : list Z) : list Z :=
  if needs_quote (atom_prop e s) then 39 :: flat_map (qtext e pr s) s ++ [39] else s.
Definition atom_last (e : env) (s : list Z) : wkind :=
  if needs_quote (atom_prop e s) then W_QUOTED else after_unquoted e (atom_prop e s) s.

Lemma flat_single : forall s : list Z, flat_map (fun c => [c]) s = s.
Proof. induction s as [|c s IH]; [reflexivity|]. cbn [flat_map app]. rewrite IH. reflexivity. Qed.

Lemma Show_Atom_text : forall e pr s st, wok st ->
  Show_Atom e pr true s st =
  (lead e st (hd 0 (atom_body e pr s)) ++ atom_body e pr s, Wst (atom_last e s) false).
Proof.
  intros e pr s st OK. unfold Show_Atom, atom_body, atom_last, qtext. cbn [negb orb].
  destruct (needs_quote (atom_prop e s)); cbn [negb].
  - unfold seqw at 1. rewrite Out_Char_text by exact OK. change (Wst W_NOTHING false) with st0. cbn [hd].
    unfold seqw at 1.
    assert (E : (if needs_scan (atom_prop e s) then show_chars e pr s else Out_String e s) st0 =
      (flat_map (if needs_scan (atom_prop e s) then char_text pr else fun c => [c]) s, st0)).
    { destruct (needs_scan (atom_prop e s)); [apply show_chars_text|]. rewrite Out_String_text by apply wok0.
      rewrite flat_single. reflexivity. }
    rewrite E. unfold seqw. rewrite Out_Char_text by apply wok0. unfold set_last. cbn [last_is_space].
    change (lead e st0 39) with (@nil Z). rewrite app_nil_r. cbn [app]. rewrite <- app_assoc. reflexivity.
  - unfold seqw. rewrite Out_String_text by exact OK. unfold set_last. rewrite app_nil_r. reflexivity.
Qed.

Lemma Show_Integer_text : forall e n st, wok st ->
  Show_Integer e n st = (lead e st (hd 0 (dec n)) ++ dec n, Wst (match dec n with [48] => W_NUMBER_0 | _ => W_NUMBER end) false).
Proof.
  intros e n st OK. unfold Show_Integer, seqw. rewrite Out_String_text by exact OK. unfold set_last. rewrite app_nil_r. reflexivity.
Qed.
Lemma Show_Var_text : forall e n st, wok st ->
  Show_Var e n st = (lead e st 95 ++ 95 :: dec n, Wst W_IDENTIFIER false).
Proof.
  intros e n st OK. unfold Show_Var, seqw. rewrite Out_String_text by exact OK. unfold set_last. rewrite app_nil_r. reflexivity.
Qed.

(** * What may follow *)

(** c would be read as part of the token written before *)
Definition joins (e : env) (w : wkind) (c : Z) : bool :=
  let t := char_type e c in
  match w with
  | W_NUMBER_0 => is_QT t || alnum t || (c =? 46) || (c =? 0)
  | W_NUMBER => alnum t || (c =? 46)
  | W_IDENTIFIER => alnum t
  | W_QUOTED => is_QT t
  | W_GRAPHIC => is_GR t
  | W_NOTHING => false
  end.
Definition fol (e : env) (w : wkind) (i : list Z) : Prop :=
  match i with [] => True | c :: _ => joins e w c = false end.
Definition inb (i : list Z) : Prop := Forall (fun c => 0 <= c <= 255) i.
Lemma inb_nonneg : forall i, inb i -> nonneg i.
Proof. intros i. apply Forall_impl. intros c. lia. Qed.
Lemma bytes_inb : forall s, bytes s -> inb s.
Proof. intros i. apply Forall_impl. intros c. lia. Qed.

Lemma fol_identifier : forall e i, inb i -> fol e W_IDENTIFIER i -> next_not e alnum i.
Proof. intros e [|c i] B F; [exact I|]. inversion B; subst. cbn. rewrite ty_char by lia. exact F. Qed.
Lemma fol_graphic : forall e i, inb i -> fol e W_GRAPHIC i -> next_not e is_GR i.
Proof. intros e [|c i] B F; [exact I|]. inversion B; subst. cbn. rewrite ty_char by lia. exact F. Qed.
Lemma fol_quoted : forall e i, fol e W_QUOTED i -> match i with [] => True | x :: _ => x <> 39 end.
Proof. intros e [|c i] F; [exact I|]. cbn in F. intros ->. discriminate F. Qed.

Lemma ends_fol : forall e w i, ends e i -> fol e w i.
Proof.
  intros e w [|c i] E; [exact I|]. cbn [ends] in E. destruct E as [Z0 E]. cbn [fol]. unfold joins.
  destruct (Z.eqb_spec c 46) as [->|_]; [contradiction|]. destruct (Z.eqb_spec c 0) as [->|_]; [lia|].
  destruct w; destruct (char_type e c); cbn [alnum is_QT is_GR orb] in *; try contradiction; reflexivity.
Qed.

Lemma space_joins : forall e w c, space_needed e w c = false -> c <> 0 -> joins e w c = false.
Proof.
  intros e w c F Z0. destruct w; cbn [space_needed joins] in *; try assumption.
  - rewrite F. destruct (Z.eqb_spec c 0); [lia|reflexivity].
  - apply orb_false_iff in F. destruct F as [F _]. apply orb_false_iff in F. apply F.
Qed.

(** the space put before a token separates it *)
Lemma fol_lead : forall e st c i, c <> 0 -> fol e (last_writing st) (lead e st c ++ c :: i).
Proof.
  intros e [w sp] c i Z0. unfold lead. cbn [last_writing]. destruct (space_needed e w c) eqn:E; cbn [app fol].
  - destruct w; reflexivity.
  - apply space_joins; assumption.
Qed.

(** * Atoms *)

(** what the properties of an atom say *)
Lemma unquoted_cases : forall e s, bytes s -> needs_quote (atom_prop e s) = false ->
  (exists c r, s = c :: r /\ char_type e c = SL /\ Forall (fun x => alnum (ty e x) = true) r
     /\ atom_last e s = W_IDENTIFIER) \/
  (exists c r, s = c :: r /\ char_type e c = GR /\ Forall (fun x => is_GR (ty e x) = true) r /\ s <> [46]
     /\ (c = 47 -> hd 0 r <> 42) /\ atom_last e s = W_GRAPHIC) \/
  ((s = [33] \/ s = [59]) /\ atom_last e s = W_NOTHING) \/
  ((s = [91; 93] \/ s = [123; 125]) /\ atom_last e s = W_NOTHING).
Proof.
  intros e s B NQ. unfold atom_last. rewrite NQ. unfold after_unquoted.
  assert (TY : forall p l, bytes l -> forallb (fun c => p (char_type e c)) l = true -> Forall (fun x => p (ty e x) = true) l).
  { intros p l Bl F. rewrite forallb_forall in F. apply Forall_forall. intros x Hx. unfold bytes in Bl.
    rewrite Forall_forall in Bl. specialize (Bl x Hx). cbv beta in Bl. rewrite ty_char by lia. apply F. exact Hx. }
  unfold atom_prop in *.
  destruct (nonempty s && forallb (fun c => alnum (char_type e c)) s && is_SL (char_type e (hd 0 s))) eqn:E1.
  { left. cbn [p_type]. apply andb_true_iff in E1. destruct E1 as [E1 T]. apply andb_true_iff in E1. destruct E1 as [NE F].
    destruct s as [|c r]; [discriminate NE|]. exists c, r. cbn [hd] in T. split; [reflexivity|]. split.
    - destruct (char_type e c); try discriminate T. reflexivity.
    - split; [|reflexivity]. apply (Forall_inv_tail (TY _ _ B F)). }
  destruct (nonempty s && forallb (fun c => is_GR (char_type e c)) s) eqn:E2.
  { right. left. cbn [needs_quote p_type] in *. apply andb_true_iff in E2. destruct E2 as [NE F].
    destruct s as [|c r]; [discriminate NE|]. exists c, r. cbn [hd] in NQ.
    pose proof (TY _ _ B F) as FT. pose proof (Forall_inv FT) as F1. cbv beta in F1.
    pose proof (Forall_inv B) as Bc. cbv beta in Bc. rewrite ty_char in F1 by lia.
    apply orb_false_iff in NQ. destruct NQ as [NQ1 NQ2]. apply orb_false_iff in NQ1. destruct NQ1 as [NQ1 _].
    split; [reflexivity|]. split; [destruct (char_type e c); try discriminate F1; reflexivity|].
    split; [apply (Forall_inv_tail FT)|]. split; [intros Q; injection Q as -> ->; discriminate NQ1|].
    split; [|reflexivity]. intros -> Q. destruct r as [|x r]; [discriminate Q|]. cbn [hd] in Q. subst x.
    cbn [length nth] in NQ2. cbn [Z.eqb Pos.eqb] in NQ2. rewrite !andb_true_r in NQ2.
    apply Z.leb_gt in NQ2. lia. }
  destruct ((Z.of_nat (length s) =? 1) && is_SC (char_type e (hd 0 s))) eqn:E3.
  { right. right. left. cbn [needs_quote p_type] in *. apply andb_true_iff in E3. destruct E3 as [L T].
    destruct s as [|c [|x r]]; [discriminate L| |cbn [length] in L; apply Z.eqb_eq in L; lia].
    cbn [hd] in *. pose proof (Forall_inv B) as Bc. cbv beta in Bc. split; [|reflexivity].
    destruct (Z.ltb_spec c 128) as [A|A].
    - pose proof (ascii_type e (fun c t => negb (is_SC t) || (c =? 33) || (c =? 44) || (c =? 59)) ltac:(vm_compute; reflexivity) c ltac:(lia)) as K.
      cbv beta in K. rewrite T in K. cbn [negb orb] in K. rewrite NQ in K. rewrite orb_false_r in K.
      apply orb_true_iff in K. destruct K as [K|K]; apply Z.eqb_eq in K; subst c; auto.
    - exfalso. destruct (char_type_ext e c A) as [Q|[Q|Q]]; rewrite Q in T; discriminate T. }
  cbn [needs_quote p_type p_length] in *. right. right. right.
  apply orb_false_iff in NQ. destruct NQ as [_ NQ]. apply negb_false_iff in NQ. apply andb_true_iff in NQ.
  destruct NQ as [L NQ]. destruct s as [|c [|x [|y r]]]; try discriminate L; [|cbn [length] in L; apply Z.eqb_eq in L; lia].
  cbn [hd nth] in NQ. apply orb_true_iff in NQ.
  destruct NQ as [NQ|NQ]; apply andb_true_iff in NQ; destruct NQ as [Q1 Q2]; apply Z.eqb_eq in Q1; apply Z.eqb_eq in Q2; subst c x;
    (split; [auto|reflexivity]).
Qed.

(** each character of a quoted atom is read back *)
Lemma quoted_chars : forall e pr s, bytes s ->
  Forall (fun c => forall i, exists st, Lexer_Quoted_Char e false 39 false false (qtext e pr s c ++ i) = Ret (QChar c, false, st) /\ inp st = i) s.
Proof.
  intros e pr s B. unfold qtext. destruct (needs_scan (atom_prop e s)) eqn:NS.
  - eapply Forall_impl; [|exact B]. intros c Bc i. apply lex_quoted_char. exact Bc.
  - apply Forall_forall. intros c Hc i. unfold bytes in B. rewrite Forall_forall in B. specialize (B c Hc). cbv beta in B.
    assert (SC0 : (negb (c =? 32) && qt_ex_la (char_type e c)) || (c =? 92) = false).
    { unfold atom_prop in NS.
      assert (K : existsb (fun c => (negb (c =? 32) && qt_ex_la (char_type e c)) || (c =? 92)) s = false).
      { destruct (nonempty s && forallb (fun c => alnum (char_type e c)) s && is_SL (char_type e (hd 0 s))); [exact NS|].
        destruct (nonempty s && forallb (fun c => is_GR (char_type e c)) s); [exact NS|].
        destruct ((Z.of_nat (length s) =? 1) && is_SC (char_type e (hd 0 s))); exact NS. }
      destruct ((negb (c =? 32) && qt_ex_la (char_type e c)) || (c =? 92)) eqn:Q; [|reflexivity].
      rewrite <- K. symmetry. apply existsb_exists. exists c. split; [exact Hc|exact Q]. }
    cbn [app]. apply lex_plain; try lia; intros ->; discriminate SC0.
Qed.

Lemma hex_len : forall c, (1 <= length (hex_escape c))%nat.
Proof. intros c. unfold hex_escape. cbn [app length]. lia. Qed.
Lemma qtext_len : forall e pr s c, (1 <= length (qtext e pr s c))%nat.
Proof.
  intros e pr s c. unfold qtext. destruct (needs_scan _); [|cbn; lia]. unfold char_text.
  destruct (strchr escape_char c); [cbn; lia|]. destruct (_ || _); [cbn; lia|].
  destruct (negb _); [apply hex_len|cbn; lia].
Qed.

(** an atom is read back, whatever the conversion if it is quoted *)
Lemma lex_quoted_atom : forall fuel e pr cp before s i,
  conv e 39 = 39 -> bytes s -> fits s -> needs_quote (atom_prop e s) = true ->
  (match i with [] => True | x :: _ => x <> 39 end) ->
  lexer_token (S fuel) e cp before (atom_body e pr s ++ i) = Ret (TokName s true, false, i).
Proof.
  intros fuel e pr cp before s i CV B FT NQ N. unfold atom_body. rewrite NQ. cbn [app]. rewrite <- app_assoc. cbn [app].
  apply lex_quoted; [exact CV|apply quoted_chars; exact B| |exact N|exact FT].
  apply Forall_forall. intros c _. apply qtext_len.
Qed.

Lemma lex_atom : forall fuel e pr cp before s i,
  no_conv e -> bytes s -> fits s -> s <> [91; 93] -> s <> [123; 125] -> inb i -> fol e (atom_last e s) i ->
  lexer_token (S fuel) e cp before (atom_body e pr s ++ i) = Ret (TokName s (needs_quote (atom_prop e s)), false, i).
Proof.
  intros fuel e pr cp before s i NC B FT N1 N2 BI F. destruct (needs_quote (atom_prop e s)) eqn:NQ.
  - unfold atom_last in F. rewrite NQ in F. apply lex_quoted_atom; try assumption; [apply NC|]. apply (fol_quoted e). exact F.
  - pose proof (unquoted_cases e s B NQ) as K. unfold atom_body. rewrite NQ.
    destruct K as [(c & r & -> & T & A & L)|[(c & r & -> & T & A & D & S1 & L)|[[[-> | ->] L]|[[-> | ->] L]]]]; try congruence.
    + rewrite L in F. pose proof (Forall_inv B) as Bc. cbv beta in Bc. cbn [app].
      apply lex_identifier; try assumption; [lia|apply fol_identifier; assumption|apply inb_nonneg; exact BI].
    + rewrite L in F. pose proof (Forall_inv B) as Bc. cbv beta in Bc. cbn [app].
      apply lex_graphic; try assumption; [lia|apply fol_graphic; assumption|apply inb_nonneg; exact BI].
    + cbn [app]. apply lex_solo; auto.
    + cbn [app]. apply lex_solo; auto.
Qed.

Lemma comma_quoted : forall e, needs_quote (atom_prop e [44]) = true.
Proof. intros e. reflexivity. Qed.

Lemma atom_body_first : forall e pr s, bytes s -> exists c r, atom_body e pr s = c :: r /\ c <> 0.
Proof.
  intros e pr s B. unfold atom_body. destruct (needs_quote (atom_prop e s)) eqn:NQ.
  - exists 39, (flat_map (qtext e pr s) s ++ [39]). split; [reflexivity|lia].
  - destruct s as [|c r]; [discriminate NQ|]. exists c, r. pose proof (Forall_inv B) as Bc. cbv beta in Bc. split; [reflexivity|lia].
Qed.

Lemma hex_digit_bound : forall d, 0 <= d < 16 -> 48 <= hex_digit d <= 102.
Proof. intros d B. unfold hex_digit. destruct (Z.ltb_spec d 10); lia. Qed.
Lemma char_text_inb : forall pr c, 1 <= c <= 255 -> inb (char_text pr c).
Proof.
  intros pr c B. unfold char_text. destruct (strchr escape_char c) as [k|] eqn:E.
  - apply escape_cases in E; [|exact B].
    repeat destruct E as [[-> ->]|E]; [..|destruct E as [-> ->]]; (constructor; [lia|constructor; [vm_compute; split; discriminate|constructor]]).
  - destruct (_ || _); [repeat (constructor; [lia|]); constructor|].
    destruct (negb _); [|constructor; [lia|constructor]]. unfold hex_escape.
    assert (D1 : 0 <= c / 16 < 16) by (split; [apply Z.div_pos; lia|apply Z.div_lt_upper_bound; lia]).
    pose proof (Z.mod_pos_bound c 16 ltac:(lia)) as D2.
    pose proof (hex_digit_bound (c / 16) D1). pose proof (hex_digit_bound (c mod 16) D2).
    destruct (Z.ltb_spec c 16); cbn [app].
    + pose proof (hex_digit_bound c ltac:(lia)). repeat (constructor; [lia|]); constructor.
    + repeat (constructor; [lia|]); constructor.
Qed.
Lemma atom_body_inb : forall e pr s, bytes s -> inb (atom_body e pr s).
Proof.
  intros e pr s B. unfold atom_body. destruct (needs_quote (atom_prop e s)); [|apply bytes_inb; exact B].
  constructor; [lia|]. apply Forall_app. split; [|constructor; [lia|constructor]].
  apply Forall_flat_map. apply Forall_forall. intros c Hc. unfold bytes in B. rewrite Forall_forall in B. specialize (B c Hc).
  unfold qtext. destruct (needs_scan (atom_prop e s)); [apply char_text_inb; exact B|constructor; [lia|constructor]].
Qed.

Lemma lead_inb : forall e st c, inb (lead e st c).
Proof. intros e st c. unfold lead. destruct (space_needed _ _ _); [constructor; [lia|]|]; constructor. Qed.
Lemma space_inb : forall i, inb i -> inb (32 :: i).
Proof. intros i B. constructor; [lia|exact B]. Qed.

(** the space before a token is skipped *)
Lemma lex_space : forall fuel e cp before i, no_conv e ->
  lexer_token (S fuel) e cp before (32 :: i) = lexer_token (S fuel) e cp true i.
Proof. intros fuel e cp before i NC. cbn [lexer_token]. rewrite skip_space by exact NC. reflexivity. Qed.

(** * Sequences *)

Lemma lexer_fuel : forall e cp i, Lexer_Token e cp i = lexer_token (S (length i)) e cp false i.
Proof. reflexivity. Qed.

Lemma read_cons : forall e n i t i' l i'', Lexer_Token e true i = Ret (t, false, i') ->
  read_tokens e n i' = Ret (Some (l, i'')) -> read_tokens e (S n) i = Ret (Some (t :: l, i'')).
Proof. intros e n i t i' l i'' E1 E2. cbn [read_tokens]. rewrite E1. cbn [bind]. rewrite E2. reflexivity. Qed.

(** the space written but not yet read *)
Definition pend (st : wst) : list Z := if last_is_space st then [32] else [].

(** reading a token behind the space written before and the space put by the writer *)
Lemma lex_behind : forall e st c i t i' cp, no_conv e -> wok st ->
  (forall fuel before, lexer_token (S fuel) e cp before i = Ret (t, false, i')) ->
  Lexer_Token e cp (pend st ++ lead e st c ++ i) = Ret (t, false, i').
Proof.
  intros e st c i t i' cp NC OK K. unfold Lexer_Token, pend, lead.
  destruct (last_is_space st) eqn:E.
  - rewrite OK by exact E. cbn [space_needed app]. rewrite lex_space by exact NC. apply K.
  - cbn [app]. destruct (space_needed e (last_writing st) c); cbn [app]; [rewrite lex_space by exact NC|]; apply K.
Qed.

Lemma dec_neg : forall n, n < 0 -> dec n = 45 :: dec (- n).
Proof.
  intros n B. unfold dec. destruct (Z.ltb_spec n 0); [|lia]. destruct (Z.ltb_spec (- n) 0); [lia|]. reflexivity.
Qed.

Lemma decimal_inb : forall s n, decimal s n -> inb s.
Proof. intros s n (F & _). eapply Forall_impl; [|exact F]. intros c. cbv beta. lia. Qed.
Lemma decimal_alnum : forall e s n, decimal s n -> Forall (fun x => alnum (ty e x) = true) s.
Proof.
  intros e s n (F & _). eapply Forall_impl; [|exact F]. intros c Bc. cbv beta in *. rewrite ty_char, digit_type by lia. reflexivity.
Qed.

(** a number *)
Definition num_last (n : Z) : wkind := match dec n with [48] => W_NUMBER_0 | _ => W_NUMBER end.
Lemma lex_dec : forall fuel e cp before n i, no_conv e -> 0 <= n < 2 ^ 61 -> inb i ->
  fol e (if n =? 0 then W_NUMBER_0 else W_NUMBER) i ->
  lexer_token (S fuel) e cp before (dec n ++ i) = Ret (TokInt n, false, i).
Proof.
  intros fuel e cp before n i NC B BI F. destruct (dec_decimal n B) as (D & L & Z0).
  assert (AN : next_not e alnum i /\ match i with [] => True | x :: r => (x <> 46 \/ isdigit (Peek_Char e true r) = false) /\ (n = 0 -> 0 < x < 256 /\ x <> 39 /\ x <> 98 /\ x <> 111 /\ x <> 120) end).
  { destruct i as [|c i]; [split; exact I|]. cbn [fol next_not] in *. inversion BI; subst. rewrite ty_char by lia.
    destruct (Z.eqb_spec n 0) as [->|N0]; unfold joins in F.
    - apply orb_false_iff in F. destruct F as [F F0]. apply orb_false_iff in F. destruct F as [F F46].
      apply orb_false_iff in F. destruct F as [FQ FA]. apply Z.eqb_neq in F0. apply Z.eqb_neq in F46.
      split; [exact FA|]. split; [left; exact F46|]. intros _. split; [lia|].
      repeat split; intros ->; first [discriminate FQ|discriminate FA].
    - apply orb_false_iff in F. destruct F as [FA F46]. apply Z.eqb_neq in F46. split; [exact FA|]. split; [left; exact F46|]. lia. }
  destruct AN as [AN R]. apply lex_number; try assumption; [|apply inb_nonneg; exact BI].
  destruct i as [|c i]; [exact I|]. cbn [next_not] in *. destruct (ty e c); try discriminate AN; reflexivity.
Qed.
Lemma dec_zero : forall n, 0 <= n < 2 ^ 61 -> dec n = [48] -> n = 0.
Proof. intros n B E. destruct (dec_decimal n B) as ((_ & _ & _ & V) & _). rewrite E in V. cbn in V. lia. Qed.
Lemma num_last_pos : forall n, 0 <= n < 2 ^ 61 -> num_last n = if n =? 0 then W_NUMBER_0 else W_NUMBER.
Proof.
  intros n B. unfold num_last. destruct (Z.eqb_spec n 0) as [->|N0]; [reflexivity|].
  destruct (dec n) as [|c [|d r]] eqn:E; try reflexivity.
  - destruct c as [|p|p]; try reflexivity. repeat (destruct p as [p|p|]; try reflexivity).
    exfalso. apply N0. apply dec_zero; assumption.
  - destruct c as [|p|p]; try reflexivity. repeat (destruct p as [p|p|]; try reflexivity).
Qed.
Lemma num_last_neg : forall n, n < 0 -> num_last n = W_NUMBER.
Proof. intros n B. unfold num_last. rewrite dec_neg by exact B. destruct (dec (- n)); reflexivity. Qed.

Lemma lex_minus : forall fuel e cp before n i, no_conv e -> 0 <= n < 2 ^ 61 -> inb i ->
  lexer_token (S fuel) e cp before (45 :: dec n ++ i) = Ret (TokName [45] false, false, dec n ++ i).
Proof.
  intros fuel e cp before n i NC B BI. destruct (dec_decimal n B) as (D & L & _).
  apply (lex_graphic fuel e cp before 45 [] (dec n ++ i) NC ltac:(lia) eq_refl (Forall_nil _)); try (cbn; lia); try discriminate.
  - destruct D as (F & NE & _). destruct (dec n) as [|c r]; [congruence|]. cbn [app next_not].
    pose proof (Forall_inv F) as Bc. cbv beta in Bc. rewrite ty_char, digit_type by lia. reflexivity.
  - apply inb_nonneg. apply Forall_app. split; [apply (decimal_inb _ n D)|exact BI].
Qed.

(** One thing written: its tokens, and what remains to be read. *)
Lemma item_read : forall e pr x st, no_conv e -> item_ok x -> wok st ->
  exists txt st' toks, Write_Item e pr x st = (txt, st') /\ wok st' /\ inb txt /\
  tokens_of (last_is_space st) x toks /\ last_is_space st' = is_space x /\
  (forall i, inb i -> fol e (last_writing st') i ->
     fol e (last_writing st) (txt ++ i) /\
     forall n l i'', read_tokens e n (pend st' ++ i) = Ret (Some (l, i'')) ->
       read_tokens e (length toks + n) (pend st ++ txt ++ i) = Ret (Some (toks ++ l, i''))).
Proof.
  intros e pr x st NC OK W. destruct x as [s|n|n|c|]; cbn [item_ok Write_Item is_space] in *.
  - destruct OK as [B FT]. rewrite Show_Atom_text by exact W.
    destruct (atom_body_first e pr s B) as (c0 & r0 & E0 & Z0).
    assert (CS : s = [91; 93] \/ s = [123; 125] \/ (s <> [91; 93] /\ s <> [123; 125])).
    { destruct (list_eq_dec Z.eq_dec s [91; 93]); [auto|]. destruct (list_eq_dec Z.eq_dec s [123; 125]); auto. }
    destruct CS as [-> |[-> |[N1 N2]]].
    + eexists _, _, [TokPunct 91; TokPunct 93]. split; [reflexivity|]. split; [apply wok_false|].
      split; [apply Forall_app; split; [apply lead_inb|apply atom_body_inb; exact B]|].
      split; [constructor|]. split; [reflexivity|]. intros i BI F. rewrite <- app_assoc.
      change (atom_body e pr [91; 93]) with [91; 93]. cbn [hd app]. split; [apply fol_lead; lia|].
      intros n l i'' R. cbn [length Nat.add].
      apply (read_cons e _ _ (TokPunct 91) (93 :: i)).
      * apply (lex_behind e st 91); [exact NC|exact W|]. intros fuel before. rewrite lex_punct by (try exact NC; reflexivity). destruct before; reflexivity.
      * apply (read_cons e _ _ (TokPunct 93) i); [|exact R]. unfold Lexer_Token. rewrite lex_punct by (try exact NC; reflexivity). reflexivity.
    + eexists _, _, [TokPunct 123; TokPunct 125]. split; [reflexivity|]. split; [apply wok_false|].
      split; [apply Forall_app; split; [apply lead_inb|apply atom_body_inb; exact B]|].
      split; [constructor|]. split; [reflexivity|]. intros i BI F. rewrite <- app_assoc.
      change (atom_body e pr [123; 125]) with [123; 125]. cbn [hd app]. split; [apply fol_lead; lia|].
      intros n l i'' R. cbn [length Nat.add].
      apply (read_cons e _ _ (TokPunct 123) (125 :: i)).
      * apply (lex_behind e st 123); [exact NC|exact W|]. intros fuel before. rewrite lex_punct by (try exact NC; reflexivity). destruct before; reflexivity.
      * apply (read_cons e _ _ (TokPunct 125) i); [|exact R]. unfold Lexer_Token. rewrite lex_punct by (try exact NC; reflexivity). reflexivity.
    + eexists _, _, [TokName s (needs_quote (atom_prop e s))]. split; [reflexivity|]. split; [apply wok_false|].
      split; [apply Forall_app; split; [apply lead_inb|apply atom_body_inb; exact B]|].
      split; [constructor; [exact N1|exact N2|]; eexists; split; [reflexivity|]; intros ->; apply comma_quoted|].
      split; [reflexivity|]. intros i BI F. cbn [last_writing] in F. rewrite <- app_assoc. split.
      * rewrite E0. cbn [hd app]. apply fol_lead. exact Z0.
      * intros n l i'' R. cbn [length Nat.add]. apply (read_cons e _ _ _ i); [|exact R].
        apply lex_behind; [exact NC|exact W|]. intros fuel before. apply lex_atom; assumption.
  - change (- 2 ^ 60) with (-1152921504606846976) in OK. change (2 ^ 60) with 1152921504606846976 in OK.
    rewrite Show_Integer_text by exact W. fold (num_last n).
    destruct (Z.ltb_spec n 0) as [NG|PS].
    + assert (B : 0 <= - n < 2 ^ 61) by (change (2 ^ 61) with 2305843009213693952; lia).
      destruct (dec_decimal (- n) B) as (D & L & _).
      eexists _, _, [TokName [45] false; TokInt (- n)]. split; [reflexivity|]. split; [apply wok_false|].
      rewrite dec_neg by exact NG. cbn [hd].
      split; [apply Forall_app; split; [apply lead_inb|constructor; [lia|apply (decimal_inb _ _ D)]]|].
      split; [constructor; exact NG|]. split; [reflexivity|].
      intros i BI F. cbn [last_writing] in F. rewrite num_last_neg in F by exact NG. rewrite <- app_assoc. cbn [app]. split; [apply fol_lead; lia|].
      intros m l i'' R. cbn [length Nat.add]. apply (read_cons e _ _ _ (dec (- n) ++ i)).
      * apply lex_behind; [exact NC|exact W|]. intros fuel before. apply lex_minus; assumption.
      * apply (read_cons e _ _ _ i); [|exact R]. unfold Lexer_Token. apply lex_dec; try assumption.
        destruct (Z.eqb_spec (- n) 0); [lia|exact F].
    + assert (B : 0 <= n < 2 ^ 61) by (change (2 ^ 61) with 2305843009213693952; lia).
      destruct (dec_decimal n B) as (D & L & _).
      eexists _, _, [TokInt n]. split; [reflexivity|]. split; [apply wok_false|].
      split; [apply Forall_app; split; [apply lead_inb|apply (decimal_inb _ _ D)]|].
      split; [constructor; exact PS|]. split; [reflexivity|].
      intros i BI F. cbn [last_writing] in F. rewrite num_last_pos in F by exact B. rewrite <- app_assoc. split.
      * destruct D as (FD & NE & _). destruct (dec n) as [|c r]; [congruence|]. cbn [hd app]. apply fol_lead.
        pose proof (Forall_inv FD) as Q. cbv beta in Q. lia.
      * intros m l i'' R. cbn [length Nat.add]. apply (read_cons e _ _ _ i); [|exact R].
        apply lex_behind; [exact NC|exact W|]. intros fuel before. apply lex_dec; assumption.
  - change (2 ^ 31) with 2147483648 in OK. rewrite Show_Var_text by exact W.
    assert (B : 0 <= n < 2 ^ 61) by (change (2 ^ 61) with 2305843009213693952; lia).
    destruct (dec_decimal n B) as (D & L & _).
    eexists _, _, [TokVar (95 :: dec n)]. split; [reflexivity|]. split; [apply wok_false|].
    split; [apply Forall_app; split; [apply lead_inb|constructor; [lia|apply (decimal_inb _ _ D)]]|].
    split; [constructor; exact D|]. split; [reflexivity|].
    intros i BI F. cbn [last_writing] in F. rewrite <- app_assoc. cbn [app]. split; [apply fol_lead; lia|].
    intros m l i'' R. cbn [length Nat.add]. apply (read_cons e _ _ _ i); [|exact R].
    apply lex_behind; [exact NC|exact W|]. intros fuel before. apply lex_variable; try assumption.
    + apply (decimal_alnum e _ _ D).
    + apply fol_identifier; assumption.
    + apply inb_nonneg. exact BI.
    + cbn [length]. lia.
  - rewrite Out_Char_text by exact W. eexists _, _, [if (c =? 40) && negb (last_is_space st) then TokOpen else TokPunct c].
    assert (PB : 40 <= c <= 125).
    { unfold punct in OK. rewrite existsb_exists in OK. destruct OK as (y & Hy & E). apply Z.eqb_eq in E. subst y. cbn [In] in Hy. lia. }
    split; [reflexivity|]. split; [apply wok_false|].
    split; [apply Forall_app; split; [apply lead_inb|constructor; [lia|constructor]]|]. split.
    { destruct (Z.eqb_spec c 40) as [->|N]; cbn [andb].
      - replace (if negb (last_is_space st) then TokOpen else TokPunct 40) with (if last_is_space st then TokPunct 40 else TokOpen)
          by (destruct (last_is_space st); reflexivity). constructor.
      - constructor. exact N. }
    split; [reflexivity|]. intros i BI F. rewrite <- app_assoc. cbn [app]. split; [apply fol_lead; lia|].
    intros m l i'' R. cbn [length Nat.add]. apply (read_cons e _ _ _ i); [|exact R].
    unfold Lexer_Token, pend, lead. destruct (last_is_space st) eqn:E.
    + rewrite W by exact E. cbn [space_needed app]. rewrite lex_space by exact NC. rewrite lex_punct by assumption. reflexivity.
    + cbn [app negb]. rewrite andb_true_r. destruct (space_needed e (last_writing st) c) eqn:S1; cbn [app].
      * rewrite lex_space by exact NC. rewrite lex_punct by assumption. cbn [negb]. rewrite andb_false_r.
        destruct (Z.eqb_spec c 40) as [->|]; [|reflexivity]. exfalso. destruct (last_writing st); discriminate S1.
      * rewrite lex_punct by assumption. cbn [negb]. rewrite andb_true_r. reflexivity.
  - unfold Out_Space. eexists _, _, []. split; [reflexivity|]. split; [intros _; reflexivity|].
    split; [destruct (last_is_space st); [constructor|constructor; [lia|constructor]]|].
    split; [constructor|]. split; [reflexivity|]. intros i BI F. split.
    + destruct (last_is_space st) eqn:E.
      * rewrite W by exact E. destruct i; [exact I|reflexivity].
      * cbn [app fol]. destruct (last_writing st); reflexivity.
    + intros n l i'' R. cbn [length Nat.add app]. unfold pend in *. cbn [last_is_space] in R. destruct (last_is_space st); exact R.
Qed.

Lemma items_read : forall e pr l st rest, no_conv e -> Forall item_ok l -> wok st -> inb rest -> ends e rest ->
  exists txt st' toks, Write_Items e pr l st = (txt, st') /\ tokens (last_is_space st) l toks /\
  inb txt /\ fol e (last_writing st) (txt ++ rest) /\
  read_tokens e (length toks) (pend st ++ txt ++ rest) = Ret (Some (toks, pend st' ++ rest)).
Proof.
  intros e pr. induction l as [|x l IH]; intros st rest NC F W BR E.
  - exists [], st, []. split; [reflexivity|]. split; [constructor|]. split; [constructor|]. split; [apply ends_fol; exact E|]. reflexivity.
  - inversion F as [|? ? F1 F2]; subst.
    destruct (item_read e pr x st NC F1 W) as (t1 & s1 & k1 & E1 & W1 & B1 & T1 & SP1 & K).
    destruct (IH s1 rest NC F2 W1 BR E) as (t2 & s2 & k2 & E2 & T2 & B2 & FL2 & R2).
    exists (t1 ++ t2), s2, (k1 ++ k2). split; [cbn [Write_Items]; unfold seqw; rewrite E1, E2; reflexivity|].
    split; [constructor; [exact T1|rewrite <- SP1; exact T2]|]. split; [apply Forall_app; split; assumption|].
    destruct (K (t2 ++ rest)) as [K1 K2]; [apply Forall_app; split; assumption|exact FL2|].
    rewrite <- !app_assoc. split; [exact K1|]. rewrite app_length. apply K2. exact R2.
Qed.
