(** Proofs for Props_Parse: a term written without operators is read back. *)
Require Import ZArith List Bool Lia.
Require Import Verif.Heap_Model Verif.Lex_Model Verif.Write_Model Verif.Lex_Spec Verif.Lex_Proofs
  Verif.Write_Proofs Verif.Parse_Model Verif.Parse_Spec.
Import ListNotations.
Open Scope Z_scope.

Fixpoint wterm_ind' (Q : wterm -> Prop)
  (HV : forall n, Q (WVar n)) (HA : forall s, Q (WAtom s)) (HI : forall n, Q (WInt n))
  (HL : forall a b, Q a -> Q b -> Q (WList a b))
  (HS : forall f l, Forall Q l -> Q (WStc f l)) (t : wterm) : Q t :=
  match t with
  | WVar n => HV n
  | WAtom s => HA s
  | WInt n => HI n
  | WList a b => HL a b (wterm_ind' Q HV HA HI HL HS a) (wterm_ind' Q HV HA HI HL HS b)
  | WStc f l => HS f l ((fix go (l : list wterm) : Forall Q l :=
      match l with
      | [] => Forall_nil _
      | x :: l => Forall_cons x (wterm_ind' Q HV HA HI HL HS x) (go l)
      end) l)
  end.

(** * The text of a term *)

Definition comma (sa : bool) : list Z := if sa then [44; 32] else [44].
Fixpoint join (c : list Z) (l : list (list Z)) : list Z :=
  match l with [] => [] | [a] => a | a :: l => a ++ c ++ join c l end.
Fixpoint body (e : env) (pr : Z -> bool) (sa : bool) (t : wterm) : list Z :=
  match t with
  | WVar n => 95 :: dec n
  | WAtom s => atom_body e pr s
  | WInt n => dec n
  | WList a b => atom_body e pr [46] ++ 40 :: join (comma sa) [body e pr sa a; body e pr sa b] ++ [41]
  | WStc f l => atom_body e pr f ++ 40 :: join (comma sa) (map (body e pr sa) l) ++ [41]
  end.
Definition tlast (e : env) (t : wterm) : wkind :=
  match t with
  | WVar n => W_IDENTIFIER
  | WAtom s => atom_last e s
  | WInt n => num_last n
  | _ => W_NOTHING
  end.

Lemma no_lead : forall e w sp c, c = 40 \/ c = 41 \/ c = 44 -> lead e (Wst w sp) c = [].
Proof. intros e w sp c [-> |[-> | ->]]; unfold lead; destruct w; reflexivity. Qed.
Lemma lead0 : forall e sp c, lead e (Wst W_NOTHING sp) c = [].
Proof. reflexivity. Qed.
Lemma wok_nothing : forall sp, wok (Wst W_NOTHING sp). Proof. intros sp _. reflexivity. Qed.
Lemma comma_text : forall e sa w, SHOW_COMMA e sa (Wst w false) = (comma sa, Wst W_NOTHING sa).
Proof.
  intros e sa w. unfold SHOW_COMMA, comma. destruct sa.
  - unfold seqw. rewrite Out_Char_text by apply wok_false. rewrite no_lead by auto. reflexivity.
  - rewrite Out_Char_text by apply wok_false. rewrite no_lead by auto. reflexivity.
Qed.

Definition show_args (e : env) (pr : Z -> bool) (sa : bool) : list wterm -> wr :=
  fix show_args (l : list wterm) : wr :=
    match l with
    | [] => fun s => ([], s)
    | [a] => Show_Term e pr sa a
    | a :: l => seqw (Show_Term e pr sa a) (seqw (SHOW_COMMA e sa) (show_args l))
    end.
Lemma Show_Stc : forall e pr sa f l, Show_Term e pr sa (WStc f l) =
  seqw (Show_Atom e pr true f) (seqw (Out_Char e 40) (seqw (show_args e pr sa l) (Out_Char e 41))).
Proof. reflexivity. Qed.

Definition text_ok (e : env) (pr : Z -> bool) (sa : bool) (t : wterm) : Prop :=
  forall st, wok st -> Show_Term e pr sa t st = (lead e st (hd 0 (body e pr sa t)) ++ body e pr sa t, Wst (tlast e t) false).

Lemma args_text : forall e pr sa l, l <> [] -> Forall (text_ok e pr sa) l ->
  forall sp, exists w, show_args e pr sa l (Wst W_NOTHING sp) = (join (comma sa) (map (body e pr sa) l), Wst w false).
Proof.
  intros e pr sa. induction l as [|a l IH]; intros NE F sp; [congruence|].
  pose proof (Forall_inv F) as F1. pose proof (Forall_inv_tail F) as F2. destruct l as [|b l].
  - exists (tlast e a). cbn [show_args map join]. rewrite (F1 _ (wok_nothing sp)). rewrite lead0. reflexivity.
  - destruct (IH ltac:(discriminate) F2 sa) as (w & E). exists w.
    change (show_args e pr sa (a :: b :: l)) with (seqw (Show_Term e pr sa a) (seqw (SHOW_COMMA e sa) (show_args e pr sa (b :: l)))).
    unfold seqw. rewrite (F1 _ (wok_nothing sp)). rewrite comma_text. rewrite E. rewrite lead0. reflexivity.
Qed.

Lemma atom_dot : forall e pr, atom_body e pr [46] = [39; 46; 39]. Proof. reflexivity. Qed.

Lemma show_text : forall e pr sa t, term_ok t -> text_ok e pr sa t.
Proof.
  intros e pr sa. induction t as [n|s|n|a b IHa IHb|f l IH] using wterm_ind'; intros OK st W.
  - cbn [Show_Term body tlast hd]. apply Show_Var_text. exact W.
  - cbn [Show_Term body tlast]. apply Show_Atom_text. exact W.
  - cbn [Show_Term body tlast]. rewrite Show_Integer_text by exact W. reflexivity.
  - inversion OK as [| | |? ? OKa OKb|]; subst. cbn [Show_Term]. unfold seqw at 1. rewrite Out_String_text by exact W.
    unfold seqw at 1. rewrite (IHa OKa _ (wok_nothing false)). unfold seqw at 1. rewrite comma_text.
    unfold seqw. rewrite (IHb OKb _ (wok_nothing sa)). rewrite Out_Char_text by apply wok_false.
    rewrite (no_lead e _ _ 41) by auto. rewrite !lead0. cbn [body tlast]. rewrite atom_dot. cbn [hd app join]. f_equal.
    rewrite <- !app_assoc. cbn [app]. rewrite <- ?app_assoc. reflexivity.
  - inversion OK as [| | | |? ? B FT L ND F]; subst. rewrite Show_Stc. unfold seqw at 1. rewrite Show_Atom_text by exact W.
    unfold seqw at 1. rewrite Out_Char_text by apply wok_false. rewrite (no_lead e _ _ 40) by auto.
    assert (FT' : Forall (text_ok e pr sa) l).
    { apply Forall_forall. intros x Hx. rewrite Forall_forall in IH, F. apply IH; [exact Hx|apply F; exact Hx]. }
    destruct (args_text e pr sa l ltac:(destruct l; [cbn in L; lia|discriminate]) FT' false) as (w & E).
    unfold seqw. rewrite E. rewrite Out_Char_text by apply wok_false. rewrite (no_lead e _ _ 41) by auto.
    destruct (atom_body_first e pr f B) as (c0 & r0 & E0 & _).
    cbn [body tlast]. rewrite E0. cbn [hd app]. f_equal. rewrite <- !app_assoc. cbn [app]. rewrite <- ?app_assoc. reflexivity.
Qed.

(** * What the reader gives *)

Definition vname (n : Z) : list Z := 95 :: dec n.
(** the index of a variable, [vs]: those already read, last first *)
Fixpoint vindex (vs : list Z) (n : Z) : option nat :=
  match vs with [] => None | x :: r => if n =? x then Some (length r) else vindex r n end.
Definition num_var (vs : list Z) (n : Z) : nat * list Z :=
  match vindex vs n with Some i => (i, vs) | None => (length vs, n :: vs) end.
Fixpoint num (t : wterm) (vs : list Z) {struct t} : pterm * list Z :=
  match t with
  | WVar n => let (i, vs) := num_var vs n in (PVar i, vs)
  | WAtom s => (PAtom s, vs)
  | WInt n => (PInt n, vs)
  | WList a b => let (p, vs) := num a vs in let (q, vs) := num b vs in (PList p q, vs)
  | WStc f l =>
    let (m, vs) := (fix nums (l : list wterm) (vs : list Z) : list pterm * list Z :=
      match l with
      | [] => ([], vs)
      | a :: l => let (p, vs) := num a vs in let (m, vs) := nums l vs in (p :: m, vs)
      end) l vs in (PStc f m, vs)
  end.
Definition nums : list wterm -> list Z -> list pterm * list Z :=
  fix nums (l : list wterm) (vs : list Z) : list pterm * list Z :=
    match l with
    | [] => ([], vs)
    | a :: l => let (p, vs) := num a vs in let (m, vs) := nums l vs in (p :: m, vs)
    end.
Lemma num_stc : forall f l vs, num (WStc f l) vs = (PStc f (fst (nums l vs)), snd (nums l vs)).
Proof. intros f l vs. cbn [num]. fold nums. destruct (nums l vs). reflexivity. Qed.
Lemma num_list : forall a b vs, num (WList a b) vs =
  (PList (fst (num a vs)) (fst (num b (snd (num a vs)))), snd (num b (snd (num a vs)))).
Proof. intros a b vs. cbn [num]. destruct (num a vs) as [p v]. cbn [fst snd]. destruct (num b v). reflexivity. Qed.
Lemma nums_cons : forall a l vs, nums (a :: l) vs =
  (fst (num a vs) :: fst (nums l (snd (num a vs))), snd (nums l (snd (num a vs)))).
Proof. intros a l vs. cbn [nums]. destruct (num a vs) as [p v]. cbn [fst snd]. fold nums. destruct (nums l v). reflexivity. Qed.

(** the variables already read are kept *)
Lemma num_app : forall t vs, exists w, snd (num t vs) = w ++ vs.
Proof.
  induction t as [n|s|n|a b IHa IHb|f l IH] using wterm_ind'; intros vs.
  - cbn [num]. unfold num_var. destruct (vindex vs n); [exists []; reflexivity|exists [n]; reflexivity].
  - exists []. reflexivity.
  - exists []. reflexivity.
  - rewrite num_list. cbn [snd]. destruct (IHa vs) as (w & E). destruct (IHb (snd (num a vs))) as (w' & E').
    exists (w' ++ w). rewrite E', E. apply app_assoc.
  - rewrite num_stc. cbn [snd]. revert vs. induction l as [|a l IHl]; intros vs; [exists []; reflexivity|].
    rewrite nums_cons. cbn [snd]. destruct (Forall_inv IH vs) as (w & E). destruct (IHl (Forall_inv_tail IH) (snd (num a vs))) as (w' & E').
    exists (w' ++ w). rewrite E', E. apply app_assoc.
Qed.
Lemma nums_app : forall l vs, exists w, snd (nums l vs) = w ++ vs.
Proof. intros l vs. destruct (num_app (WStc [] l) vs) as (w & E). rewrite num_stc in E. exists w. exact E. Qed.
Lemma num_mono : forall t vs, (length vs <= length (snd (num t vs)))%nat.
Proof. intros t vs. destruct (num_app t vs) as (w & E). rewrite E, app_length. lia. Qed.
Lemma nums_mono : forall l vs, (length vs <= length (snd (nums l vs)))%nat.
Proof. intros t vs. destruct (nums_app t vs) as (w & E). rewrite E, app_length. lia. Qed.

(** * The end of a term *)

Definition ender (cp : bool) (tk : token) : Prop :=
  (tk = TokPunct 44 /\ cp = true) \/ tk = TokPunct 41 \/ tk = TokStop \/ tk = TokEof.
(** what follows is read as [tk], then R' remains *)
Definition follows (P : penv) (cp : bool) (tk : token) (R R' : list Z) : Prop :=
  ender cp tk /\ Lexer_Token (lx P) cp R = Ret (tk, false, R') /\
  (exists tk0, Lexer_Token (lx P) false R = Ret (tk0, false, R') /\
     (tk0 = tk \/ (tk0 = TokName [44] false /\ tk = TokPunct 44))) /\
  Peek_Char (lx P) true R <> 40.
Definition pending (P : penv) (cp : bool) (tk : token) (R' : list Z) (d : list (list Z)) (s : pst) : Prop :=
  Read_Next_Token P cp s = Ret (POk tk (Pst R' None d)).

Lemma pend_in : forall P cp tk R R' d, follows P cp tk R R' -> pending P cp tk R' d (Pst R None d).
Proof.
  intros P cp tk R R' d (E & L & _). unfold pending, Read_Next_Token. cbn [p_unget p_inp p_dico].
  rewrite L. reflexivity.
Qed.
Lemma pend_unget : forall P cp tk R' d, ender cp tk -> pending P cp tk R' d (Pst R' (Some tk) d).
Proof.
  intros P cp tk R' d E. unfold pending, Read_Next_Token. cbn [p_unget p_inp p_dico].
  destruct E as [[-> ->]|[-> |[-> | ->]]]; try reflexivity. destruct cp; reflexivity.
Qed.
Lemma pend_unget0 : forall P cp tk tk0 R' d, ender cp tk ->
  (tk0 = tk \/ (tk0 = TokName [44] false /\ tk = TokPunct 44)) -> pending P cp tk R' d (Pst R' (Some tk0) d).
Proof.
  intros P cp tk tk0 R' d E [-> |[-> ->]]; [apply pend_unget; exact E|].
  destruct E as [[_ ->]|[Q|[Q|Q]]]; try discriminate Q. reflexivity.
Qed.

Lemma loop_stop : forall f P prec cp left lio a tk R' d s, ender cp tk -> pending P cp tk R' d s ->
  parse_loop (S f) P prec cp left lio a s = Ret (POk (Some a) (Pst R' (Some tk) d)).
Proof.
  intros f P prec cp left lio a tk R' d s E PD. cbn [parse_loop]. rewrite PD. cbn [pbind].
  destruct E as [[-> ->]|[-> |[-> | ->]]]; reflexivity.
Qed.
Lemma trying_stop : forall f P prec cp tk R' d s, ender cp tk -> pending P cp tk R' d s ->
  Parse_Term (S f) P prec TRYING_PREFIX cp s = Ret (POk None (Pst R' (Some tk) d)).
Proof.
  intros f P prec cp tk R' d s E PD. cbn [Parse_Term trying negb orb]. rewrite PD. cbn [pbind].
  destruct E as [[-> ->]|[-> |[-> | ->]]]; reflexivity.
Qed.

Lemma str_eqb_refl : forall s, str_eqb s s = true.
Proof. intros s. unfold str_eqb. destruct (list_eq_dec Z.eq_dec s s); congruence. Qed.
Lemma str_eqb_neq : forall a b, a <> b -> str_eqb a b = false.
Proof. intros a b N. unfold str_eqb. destruct (list_eq_dec Z.eq_dec a b); congruence. Qed.

(** an atom *)
Lemma name_stop : forall f P prec cp n q tk R R' d, follows P cp tk R R' ->
  a_name (S (S f)) P prec GENERAL_TERM cp n q (Pst R None d) = Ret (POk (Some (PAtom n)) (Pst R' (Some tk) d)).
Proof.
  intros f P prec cp n q tk R R' d FO. pose proof FO as (E & L & (tk0 & L0 & Q0) & PK).
  assert (PR : forall s, pending P cp tk R' d s ->
    match oper P n PREFIX with
    | Some o =>
      if o_prec o <=? prec then
        get r, s <- Parse_Term (S f) P (o_right o) TRYING_PREFIX cp s;
        match r with
        | Some a => parse_loop (S f) P prec cp (o_prec o) false (Create_Structure n [a]) s
        | None => if negb (general GENERAL_TERM) then Parse_Error else
                  if is_op P n && negb (general GENERAL_TERM) then Parse_Error
                  else parse_loop (S f) P prec cp (o_prec o) (is_op P n) (PAtom n) s
        end
      else if is_op P n && negb (general GENERAL_TERM) then Parse_Error
                  else parse_loop (S f) P prec cp 0 (is_op P n) (PAtom n) s
    | None => if is_op P n && negb (general GENERAL_TERM) then Parse_Error
                  else parse_loop (S f) P prec cp 0 (is_op P n) (PAtom n) s
    end = Ret (POk (Some (PAtom n)) (Pst R' (Some tk) d))).
  { intros s PD. cbn [general negb]. rewrite andb_false_r.
    destruct (oper P n PREFIX) as [o|]; [|apply loop_stop; assumption].
    destruct (o_prec o <=? prec); [|apply loop_stop; assumption].
    rewrite (trying_stop f P (o_right o) cp tk R' d s E PD). cbn [pbind].
    apply loop_stop; [exact E|apply pend_unget; exact E]. }
  cbn [a_name p_inp]. apply Z.eqb_neq in PK. rewrite PK. cbn [andb].
  destruct (str_eqb n [45]).
  - unfold Read_Next_Token at 1. cbn [p_unget p_inp p_dico]. rewrite L0. cbn [bind pbind].
    assert (PR' := PR (Unget_Token tk0 (Pst R' None d)) (pend_unget0 P cp tk tk0 R' d E Q0)).
    destruct Q0 as [-> |[-> ->]].
    + destruct E as [[-> ->]|[-> |[-> | ->]]]; exact PR'.
    + exact PR'.
  - apply PR. apply pend_in. exact FO.
Qed.

(** * Reading a term *)

Definition pre_ok (pre : list Z) : Prop := pre = [] \/ pre = [32].
Lemma lex_pre : forall e cp pre i t i', no_conv e -> pre_ok pre ->
  (forall fuel before, lexer_token (S fuel) e cp before i = Ret (t, false, i')) ->
  Lexer_Token e cp (pre ++ i) = Ret (t, false, i').
Proof.
  intros e cp pre i t i' NC [-> | ->] K; unfold Lexer_Token; cbn [app]; [apply K|].
  rewrite lex_space by exact NC. apply K.
Qed.

(** what may follow: also a dot and a newline behind a number *)
Definition nfol (e : env) (w : wkind) (i : list Z) : Prop :=
  fol e w i \/ ((w = W_NUMBER \/ w = W_NUMBER_0) /\ exists r, i = 46 :: 10 :: r).
Lemma nfol_fol : forall e w i, nfol e w i -> w <> W_NUMBER -> w <> W_NUMBER_0 -> fol e w i.
Proof. intros e w i [F|[[Q|Q] _]] N1 N2; [exact F|congruence|congruence]. Qed.

Lemma lex_dec' : forall fuel e cp before n i, no_conv e -> 0 <= n < 2 ^ 61 -> inb i ->
  nfol e (if n =? 0 then W_NUMBER_0 else W_NUMBER) i ->
  lexer_token (S fuel) e cp before (dec n ++ i) = Ret (TokInt n, false, i).
Proof.
  intros fuel e cp before n i NC B BI [F|[_ (r & ->)]]; [apply lex_dec; assumption|].
  destruct (dec_decimal n B) as (D & L & Z0). apply lex_number; try assumption; [reflexivity|apply inb_nonneg; exact BI|].
  split; [right; cbn [Peek_Char conv_if]; rewrite NC; reflexivity|]. intros _. lia.
Qed.

Lemma cstr_bytes : forall s, bytes s -> cstr s = s.
Proof.
  induction s as [|c s IH]; intros B; [reflexivity|]. pose proof (Forall_inv B) as Bc. cbv beta in Bc.
  cbn [cstr]. destruct (Z.eqb_spec c 0); [lia|]. rewrite IH by (apply (Forall_inv_tail B)). reflexivity.
Qed.

(** the beginning: a name, [] or {} *)
Lemma term_name : forall f P prec cp s n q s', Read_Next_Token P true s = Ret (POk (TokName n q) s') ->
  Parse_Term (S f) P prec GENERAL_TERM cp s = a_name f P prec GENERAL_TERM cp (cstr n) q s'.
Proof. intros f P prec cp s n q s' E. cbn [Parse_Term trying negb orb]. rewrite E. reflexivity. Qed.
Lemma term_close : forall f P prec cp s c s', Read_Next_Token P true s = Ret (POk (TokPunct c) s') -> c = 93 \/ c = 125 ->
  Parse_Term (S f) P prec GENERAL_TERM cp s = Ret (POk None (Unget_Token (TokPunct c) s')).
Proof. intros f P prec cp s c s' E [-> | ->]; cbn [Parse_Term trying negb orb]; rewrite E; reflexivity. Qed.
Lemma term_open : forall f P prec cp s c s', Read_Next_Token P true s = Ret (POk (TokPunct c) s') -> c = 91 \/ c = 123 ->
  Parse_Term (S f) P prec GENERAL_TERM cp s =
  get r, s <- parse_bracketed f P c s';
  match r with
  | None => a_name f P prec GENERAL_TERM cp (if c =? 123 then [123; 125] else [91; 93]) false s
  | Some a => parse_loop f P prec cp 0 false a s
  end.
Proof. intros f P prec cp s c s' E [-> | ->]; cbn [Parse_Term trying negb orb]; rewrite E; reflexivity. Qed.
Lemma list_empty : forall f P s s', Read_Next_Token P true s = Ret (POk (TokPunct 93) s') -> p_unget s' = None ->
  parse_bracketed (S (S (S f))) P 91 s = Ret (POk None s').
Proof.
  intros f P s [i u d] E U. cbn [p_unget] in U. subst u. cbn [parse_bracketed Z.eqb Pos.eqb]. remember (S f) as f1. cbn [parse_list]. subst f1.
  rewrite (term_close f P _ true s 93 _ E ltac:(auto)). reflexivity.
Qed.
Lemma curly_empty : forall f P s s', Read_Next_Token P true s = Ret (POk (TokPunct 125) s') -> p_unget s' = None ->
  parse_bracketed (S (S f)) P 123 s = Ret (POk None s').
Proof.
  intros f P s [i u d] E U. cbn [p_unget] in U. subst u. remember (S f) as f1. cbn [parse_bracketed Z.eqb Pos.eqb]. subst f1.
  rewrite (term_close f P _ false s 125 _ E ltac:(auto)). reflexivity.
Qed.
Lemma read_in : forall P cp i d t i', Lexer_Token (lx P) cp i = Ret (t, false, i') ->
  Read_Next_Token P cp (Pst i None d) = Ret (POk t (Pst i' None d)).
Proof. intros P cp i d t i' E. unfold Read_Next_Token. cbn [p_unget p_inp p_dico]. rewrite E. reflexivity. Qed.

Lemma begin_name : forall P e pr cp s pre R d, lx P = e -> no_conv e -> bytes s -> fits s -> inb R ->
  fol e (atom_last e s) R -> pre_ok pre -> exists q, (s = [44] -> q = true) /\ forall f prec,
  Parse_Term (S (S (S (S f)))) P prec GENERAL_TERM cp (Pst (pre ++ atom_body e pr s ++ R) None d) =
  a_name (S (S (S f))) P prec GENERAL_TERM cp s q (Pst R None d).
Proof.
  intros P e pr cp s pre R d EL NC B FT BR F PO. subst e.
  assert (CS : s = [91; 93] \/ s = [123; 125] \/ (s <> [91; 93] /\ s <> [123; 125])).
  { destruct (list_eq_dec Z.eq_dec s [91; 93]); [auto|]. destruct (list_eq_dec Z.eq_dec s [123; 125]); auto. }
  destruct CS as [-> |[-> |[N1 N2]]].
  - exists false. split; [discriminate|]. intros f prec.
    change (atom_body (lx P) pr [91; 93] ++ R) with (91 :: 93 :: R).
    rewrite (term_open _ P prec cp _ 91 (Pst (93 :: R) None d)); [| |auto].
    + rewrite (list_empty f P _ (Pst R None d)); [reflexivity| |reflexivity]. apply read_in.
      unfold Lexer_Token. rewrite lex_punct by (try exact NC; reflexivity). reflexivity.
    + apply read_in. apply lex_pre; [exact NC|exact PO|].
      intros fuel before. rewrite lex_punct by (try exact NC; reflexivity). destruct before; reflexivity.
  - exists false. split; [discriminate|]. intros f prec.
    change (atom_body (lx P) pr [123; 125] ++ R) with (123 :: 125 :: R).
    rewrite (term_open _ P prec cp _ 123 (Pst (125 :: R) None d)); [| |auto].
    + rewrite (curly_empty (S f) P _ (Pst R None d)); [reflexivity| |reflexivity]. apply read_in.
      unfold Lexer_Token. rewrite lex_punct by (try exact NC; reflexivity). reflexivity.
    + apply read_in. apply lex_pre; [exact NC|exact PO|].
      intros fuel before. rewrite lex_punct by (try exact NC; reflexivity). destruct before; reflexivity.
  - exists (needs_quote (atom_prop (lx P) s)). split; [intros ->; apply comma_quoted|]. intros f prec.
    rewrite (term_name _ P prec cp _ s (needs_quote (atom_prop (lx P) s)) (Pst R None d)).
    + rewrite cstr_bytes by exact B. reflexivity.
    + apply read_in. apply lex_pre; [exact NC|exact PO|]. intros fuel before. apply lex_atom; assumption.
Qed.

Lemma vname_eqb : forall n m, 0 <= n < 2 ^ 31 -> 0 <= m < 2 ^ 31 -> str_eqb (vname n) (vname m) = (n =? m).
Proof.
  intros n m Bn Bm. change (2 ^ 31) with 2147483648 in *. destruct (Z.eqb_spec n m) as [->|N]; [apply str_eqb_refl|].
  apply str_eqb_neq. intros Q. injection Q as Q. apply N.
  destruct (dec_decimal n ltac:(change (2 ^ 61) with 2305843009213693952; lia)) as ((_ & _ & _ & V) & _).
  destruct (dec_decimal m ltac:(change (2 ^ 61) with 2305843009213693952; lia)) as ((_ & _ & _ & V') & _).
  rewrite Q in V. congruence.
Qed.
Definition off (n : Z) : Prop := 0 <= n < 2 ^ 31.
Lemma lookup_vname : forall vs n, Forall off vs -> off n -> lookup_var (map vname vs) (vname n) = vindex vs n.
Proof.
  induction vs as [|m vs IH]; intros n F B; [reflexivity|]. cbn [map lookup_var vindex].
  rewrite vname_eqb by (try exact B; apply (Forall_inv F)). rewrite map_length, IH by (try exact B; apply (Forall_inv_tail F)). reflexivity.
Qed.
Lemma var_lookup : forall n vs i u, Forall off vs -> off n -> Z.of_nat (length (snd (num_var vs n))) <= 1048576 ->
  Lookup_In_Dico_Var (vname n) (Pst i u (map vname vs)) =
  Ret (POk (fst (num_var vs n)) (Pst i u (map vname (snd (num_var vs n))))).
Proof.
  intros n vs i u F B L. assert (B' := B). unfold off in B'. change (2 ^ 31) with 2147483648 in B'.
  destruct (dec_decimal n ltac:(change (2 ^ 61) with 2305843009213693952; lia)) as ((_ & NE & _) & LN & _).
  unfold Lookup_In_Dico_Var. cbn [p_dico p_inp p_unget].
  rewrite (str_eqb_neq (vname n) [95]) by (unfold vname; intros Q; injection Q as Q; congruence).
  rewrite lookup_vname by assumption. unfold num_var in *. destruct (vindex vs n) as [k|]; [reflexivity|].
  cbn [fst snd length] in *. rewrite map_length. unfold MAX_VAR_IN_TERM, MAX_VAR_NAME_LENGTH.
  destruct (Z.leb_spec (1024 * 1024) (Z.of_nat (length vs))); [lia|].
  destruct (Z.leb_spec 1024 (Z.of_nat (length (vname n)))) as [K|_]; [unfold vname in K; cbn [length] in K; lia|]. reflexivity.
Qed.

(** the dictionary stays one of names of variables *)
Lemma num_off : forall t vs, term_ok t -> Forall off vs -> Forall off (snd (num t vs)).
Proof.
  induction t as [n|s|n|a b IHa IHb|f l IH] using wterm_ind'; intros vs OK F; inversion OK; subst.
  - cbn [num]. unfold num_var. destruct (vindex vs n); [exact F|]. constructor; assumption.
  - exact F.
  - exact F.
  - rewrite num_list. cbn [snd]. auto.
  - rewrite num_stc. cbn [snd]. match goal with H : Forall term_ok l |- _ => rename H into FO end. clear - IH F FO.
    revert vs F. induction l as [|a l IHl]; intros vs F; [exact F|]. rewrite nums_cons. cbn [snd].
    apply IHl; [apply (Forall_inv_tail IH)|apply (Forall_inv_tail FO)|]. apply (Forall_inv IH); [apply (Forall_inv FO)|exact F].
Qed.

(** a term is read back; any environment of operators *)
Definition reads (P : penv) (e : env) (pr : Z -> bool) (sa : bool) (t : wterm) : Prop :=
  forall vs, Forall off vs -> Z.of_nat (length (snd (num t vs))) <= 1048576 ->
  forall cp tk R R', inb R -> nfol e (tlast e t) R -> follows P cp tk R R' ->
  exists f0, forall fuel, (f0 <= fuel)%nat -> forall prec pre, pre_ok pre ->
  Parse_Term fuel P prec GENERAL_TERM cp (Pst (pre ++ body e pr sa t ++ R) None (map vname vs)) =
  Ret (POk (Some (fst (num t vs))) (Pst R' (Some tk) (map vname (snd (num t vs))))).

Lemma follows_comma : forall P R, no_conv (lx P) -> follows P true (TokPunct 44) (44 :: R) R.
Proof.
  intros P R NC. split; [left; auto|]. split.
  - unfold Lexer_Token. rewrite lex_punct by (try exact NC; reflexivity). reflexivity.
  - split; [|cbn [Peek_Char conv_if]; rewrite NC; lia]. exists (TokName [44] false). split; [|auto].
    unfold Lexer_Token. cbn [length lexer_token]. rewrite skip_one by (try exact NC; reflexivity). reflexivity.
Qed.
Lemma follows_close : forall P cp R, no_conv (lx P) -> follows P cp (TokPunct 41) (41 :: R) R.
Proof.
  intros P cp R NC. split; [right; left; auto|].
  assert (K : forall cp, Lexer_Token (lx P) cp (41 :: R) = Ret (TokPunct 41, false, R)).
  { intros cp'. unfold Lexer_Token. rewrite lex_punct' by (try exact NC; try reflexivity; lia). reflexivity. }
  split; [apply K|]. split; [|cbn [Peek_Char conv_if]; rewrite NC; lia]. exists (TokPunct 41). split; [apply K|auto].
Qed.
Lemma fol_punct : forall e w c R, c = 40 \/ c = 41 \/ c = 44 -> fol e w (c :: R).
Proof. intros e w c R [-> |[-> | ->]]; destruct w; reflexivity. Qed.

Lemma comma_inb : forall sa, inb (comma sa).
Proof. intros [|]; repeat (constructor; [lia|]); constructor. Qed.
Lemma join_inb : forall c l, inb c -> Forall inb l -> inb (join c l).
Proof.
  intros c l C. induction l as [|a l IH]; intros F; [constructor|].
  pose proof (Forall_inv F) as F1. pose proof (Forall_inv_tail F) as F2. destruct l as [|b l]; [exact F1|].
  cbn [join] in *. apply Forall_app. split; [exact F1|]. apply Forall_app. split; [exact C|]. apply IH. exact F2.
Qed.
Lemma dec_inb : forall n, - 2 ^ 60 <= n < 2 ^ 60 -> inb (dec n).
Proof.
  intros n B. change (- 2 ^ 60) with (-1152921504606846976) in B. change (2 ^ 60) with 1152921504606846976 in B.
  destruct (Z.ltb_spec n 0).
  - rewrite dec_neg by lia. constructor; [lia|]. eapply decimal_inb. apply dec_decimal. change (2 ^ 61) with 2305843009213693952. lia.
  - eapply decimal_inb. apply dec_decimal. change (2 ^ 61) with 2305843009213693952. lia.
Qed.
Lemma body_inb : forall e pr sa t, term_ok t -> inb (body e pr sa t).
Proof.
  intros e pr sa. induction t as [n|s|n|a b IHa IHb|f l IH] using wterm_ind'; intros OK; inversion OK; subst; cbn [body].
  - constructor; [lia|]. apply dec_inb. change (2 ^ 31) with 2147483648 in *. change (- 2 ^ 60) with (-1152921504606846976).
    change (2 ^ 60) with 1152921504606846976. lia.
  - apply atom_body_inb. assumption.
  - apply dec_inb. assumption.
  - apply Forall_app. split; [apply atom_body_inb; repeat (constructor; [lia|]); constructor|]. constructor; [lia|].
    apply Forall_app. split; [|constructor; [lia|constructor]]. apply join_inb; [apply comma_inb|]. repeat (constructor; auto).
  - apply Forall_app. split; [apply atom_body_inb; assumption|]. constructor; [lia|].
    apply Forall_app. split; [|constructor; [lia|constructor]]. apply join_inb; [apply comma_inb|].
    match goal with H : Forall term_ok l |- _ => rename H into FO end. clear - IH FO.
    induction l as [|a l IHl]; [constructor|]. cbn [map]. constructor; [apply (Forall_inv IH); apply (Forall_inv FO)|].
    apply IHl; [apply (Forall_inv_tail IH)|apply (Forall_inv_tail FO)].
Qed.

Lemma args_S : forall f P l s, Z.of_nat (length l) < 255 -> parse_args (S f) P l s =
  get r, s <- Parse_Term f P MAX_ARG_OF_FUNCTOR_PREC GENERAL_TERM true s;
  match r with
  | None => Parse_Error
  | Some a =>
    get t, s <- Read_Next_Token P true s;
    match t with
    | TokPunct 44 => parse_args f P (a :: l) s
    | TokPunct 41 => Ret (POk (rev (a :: l)) s)
    | _ => Parse_Error
    end
  end.
Proof.
  intros f P l s L. cbn [parse_args]. unfold MAX_ARITY. destruct (Z.leb_spec 255 (Z.of_nat (length l))); [lia|]. reflexivity.
Qed.

Lemma args_read : forall P e pr sa, lx P = e -> no_conv e -> forall l, l <> [] -> Forall term_ok l -> Forall (reads P e pr sa) l ->
  forall vs acc R, (length acc + length l <= 255)%nat -> Forall off vs -> Z.of_nat (length (snd (nums l vs))) <= 1048576 -> inb R ->
  exists f0, forall fuel, (f0 <= fuel)%nat -> forall pre, pre_ok pre ->
  parse_args fuel P acc (Pst (pre ++ join (comma sa) (map (body e pr sa) l) ++ 41 :: R) None (map vname vs)) =
  Ret (POk (rev acc ++ fst (nums l vs)) (Pst R None (map vname (snd (nums l vs))))).
Proof.
  intros P e pr sa EL NC. induction l as [|a l IH]; intros NE FO FR vs acc R LN OV LV BR; [congruence|].
  pose proof (Forall_inv FR) as R1. pose proof (Forall_inv_tail FR) as R2.
  pose proof (Forall_inv FO) as O1. pose proof (Forall_inv_tail FO) as O2. cbn [length] in LN.
  rewrite nums_cons in LV |- *. cbn [fst snd] in *. pose proof (nums_mono l (snd (num a vs))) as MO.
  assert (NC' : no_conv (lx P)) by (rewrite EL; exact NC).
  destruct l as [|b l].
  - destruct (R1 vs OV ltac:(lia) true (TokPunct 41) (41 :: R) R) as (f0 & K);
      [constructor; [lia|exact BR]|left; apply fol_punct; auto|apply follows_close; exact NC'|].
    exists (S f0). intros fuel LE pre PO. destruct fuel as [|fuel]; [lia|]. rewrite args_S by lia.
    cbn [map join]. rewrite (K fuel ltac:(lia) _ pre PO). reflexivity.
  - set (T := join (comma sa) (map (body e pr sa) (b :: l)) ++ 41 :: R) in *.
    assert (BT : inb T).
    { apply Forall_app. split; [|constructor; [lia|exact BR]]. apply join_inb; [apply comma_inb|].
      apply Forall_map. eapply Forall_impl; [|exact O2]. intros x Ox. apply body_inb. exact Ox. }
    set (pre' := if sa then [32] else @nil Z).
    assert (PO' : pre_ok pre') by (unfold pre_ok, pre'; destruct sa; auto).
    assert (TX : join (comma sa) (map (body e pr sa) (a :: b :: l)) ++ 41 :: R = body e pr sa a ++ 44 :: pre' ++ T).
    { unfold T. cbn [map join]. rewrite <- !app_assoc. f_equal. unfold comma, pre'. destruct sa; reflexivity. }
    destruct (R1 vs OV ltac:(lia) true (TokPunct 44) (44 :: pre' ++ T) (pre' ++ T)) as (f1 & K1);
      [|left; apply fol_punct; auto|apply follows_comma; exact NC'|].
    { constructor; [lia|]. apply Forall_app. split; [|exact BT]. destruct PO' as [-> | ->]; repeat (constructor; try lia). }
    destruct (IH ltac:(discriminate) O2 R2 (snd (num a vs)) (fst (num a vs) :: acc) R) as (f2 & K2);
      [cbn [length] in *; lia|apply num_off; assumption|lia|exact BR|].
    exists (S (Nat.max f1 f2)). intros fuel LE pre PO. destruct fuel as [|fuel]; [lia|]. rewrite args_S by lia.
    rewrite TX. rewrite (K1 fuel ltac:(lia) _ pre PO). cbn [pbind].
    rewrite (pend_unget P true (TokPunct 44) _ _ ltac:(left; auto)). cbn [pbind].
    unfold T. rewrite (K2 fuel ltac:(lia) pre' PO'). cbn [rev]. rewrite <- app_assoc. reflexivity.
Qed.

Lemma name_functor : forall f P prec ctx cp n q s, (n = [44] -> q = true) -> Peek_Char (lx P) true (p_inp s) = 40 ->
  a_name (S f) P prec ctx cp n q s =
  get t, s <- Read_Next_Token P false s;
  get l, s <- parse_args f P [] s;
  parse_loop f P prec cp 0 false (Create_Structure n l) s.
Proof.
  intros f P prec ctx cp n q s Q PK. cbn [a_name]. rewrite PK. cbn [Z.eqb Pos.eqb andb].
  destruct (list_eq_dec Z.eq_dec n [44]) as [->|N].
  - rewrite Q by reflexivity. rewrite orb_true_r. reflexivity.
  - rewrite (str_eqb_neq n [44] N). reflexivity.
Qed.

(** a compound term *)
Lemma functor_read : forall P e pr sa n l, lx P = e -> no_conv e -> bytes n -> fits n ->
  (1 <= length l <= 255)%nat -> Forall term_ok l -> Forall (reads P e pr sa) l ->
  forall vs, Forall off vs -> Z.of_nat (length (snd (nums l vs))) <= 1048576 ->
  forall cp tk R R', inb R -> follows P cp tk R R' ->
  exists f0, forall fuel, (f0 <= fuel)%nat -> forall prec pre, pre_ok pre ->
  Parse_Term fuel P prec GENERAL_TERM cp
    (Pst (pre ++ (atom_body e pr n ++ 40 :: join (comma sa) (map (body e pr sa) l) ++ [41]) ++ R) None (map vname vs)) =
  Ret (POk (Some (Create_Structure n (fst (nums l vs)))) (Pst R' (Some tk) (map vname (snd (nums l vs))))).
Proof.
  intros P e pr sa n l EL NC B FT LL FO FR vs OV LV cp tk R R' BR FOL.
  destruct (args_read P e pr sa EL NC l ltac:(destruct l; [cbn in LL; lia|discriminate]) FO FR vs [] R) as (f0 & K);
    [cbn [length]; lia|exact OV|exact LV|exact BR|].
  exists (f0 + 6)%nat. intros fuel LE prec pre PO.
  destruct fuel as [|[|[|[|fuel]]]]; [lia|lia|lia|lia|].
  rewrite <- app_assoc. cbn [app]. rewrite <- app_assoc. cbn [app].
  set (T := join (comma sa) (map (body e pr sa) l) ++ 41 :: R) in *.
  assert (BT : inb T).
  { apply Forall_app. split; [|constructor; [lia|exact BR]]. apply join_inb; [apply comma_inb|].
    apply Forall_map. eapply Forall_impl; [|exact FO]. intros x Ox. apply body_inb. exact Ox. }
  destruct (begin_name P e pr cp n pre (40 :: T) (map vname vs) EL NC B FT ltac:(constructor; [lia|exact BT])
     ltac:(apply fol_punct; auto) PO) as (q & Q & BG).
  rewrite BG. rewrite name_functor by (try exact Q; cbn [p_inp Peek_Char conv_if]; rewrite EL, NC; reflexivity).
  rewrite (read_in P false (40 :: T) _ TokOpen T).
  2:{ unfold Lexer_Token. rewrite EL. rewrite lex_punct' by (try exact NC; try reflexivity; lia). reflexivity. }
  cbn [pbind]. assert (K0 := K (S (S fuel)) ltac:(lia) [] ltac:(left; reflexivity)). cbn [app rev] in K0. rewrite K0. cbn [pbind].
  apply loop_stop; [apply FOL|]. apply pend_in. exact FOL.
Qed.

Lemma nums_length : forall l vs, length (fst (nums l vs)) = length l.
Proof. induction l as [|a l IH]; intros vs; [reflexivity|]. rewrite nums_cons. cbn [fst length]. rewrite IH. reflexivity. Qed.

Lemma term_int : forall f P prec cp s n s', Read_Next_Token P true s = Ret (POk (TokInt n) s') -> check_int n = true ->
  Parse_Term (S f) P prec GENERAL_TERM cp s = parse_loop f P prec cp 0 false (PInt n) s'.
Proof. intros f P prec cp s n s' E C. cbn [Parse_Term trying negb orb]. rewrite E. cbn [pbind]. rewrite C. reflexivity. Qed.
Lemma term_var : forall f P prec cp s n s', Read_Next_Token P true s = Ret (POk (TokVar n) s') ->
  Parse_Term (S f) P prec GENERAL_TERM cp s =
  get i, s <- Lookup_In_Dico_Var n s'; parse_loop f P prec cp 0 false (PVar i) s.
Proof. intros f P prec cp s n s' E. cbn [Parse_Term trying negb orb]. rewrite E. reflexivity. Qed.
Lemma name_minus : forall f P prec ctx cp q s n s', Read_Next_Token P false s = Ret (POk (TokInt n) s') -> check_int (- n) = true ->
  Peek_Char (lx P) true (p_inp s) <> 40 ->
  a_name (S f) P prec ctx cp [45] q s = parse_loop f P prec cp 0 false (PInt (- n)) s'.
Proof.
  intros f P prec ctx cp q s n s' E C PK. cbn [a_name]. apply Z.eqb_neq in PK. rewrite PK. cbn [andb].
  rewrite str_eqb_refl. rewrite E. cbn [pbind]. rewrite C. reflexivity.
Qed.

Theorem term_reads : forall P e pr sa, lx P = e -> no_conv e -> forall t, term_ok t -> reads P e pr sa t.
Proof.
  intros P e pr sa EL NC. induction t as [n|s|n|a b IHa IHb|f l IH] using wterm_ind'; intros OK vs OV LV cp tk R R' BR NF FOL;
    inversion OK; subst.
  - exists 2%nat. intros fuel LE prec pre PO. destruct fuel as [|[|fuel]]; [lia|lia|].
    match goal with H : 0 <= n < _ |- _ => rename H into Bn end. assert (Bn' := Bn). change (2 ^ 31) with 2147483648 in Bn'.
    destruct (dec_decimal n ltac:(change (2 ^ 61) with 2305843009213693952; lia)) as (D & LD & _).
    assert (N46 : nfol (lx P) W_IDENTIFIER R -> fol (lx P) W_IDENTIFIER R) by (intros X; apply nfol_fol; [exact X|discriminate|discriminate]).
    rewrite (term_var _ P prec cp _ (vname n) (Pst R None (map vname vs))).
    2:{ apply read_in. apply lex_pre; [exact NC|exact PO|]. intros fuel' before. cbn [body app]. apply lex_variable; try assumption.
        - apply (decimal_alnum (lx P) _ n D).
        - apply fol_identifier; [exact BR|]. apply N46. exact NF.
        - apply inb_nonneg. exact BR.
        - cbn [length]. lia. }
    assert (LV' : Z.of_nat (length (snd (num_var vs n))) <= 1048576).
    { cbn [num] in LV. destruct (num_var vs n). exact LV. }
    rewrite var_lookup by (try assumption). cbn [pbind num].
    destruct (num_var vs n) as [i vs'] eqn:EN. cbn [fst snd].
    apply loop_stop; [apply FOL|]. apply pend_in. exact FOL.
  - exists 4%nat. intros fuel LE prec pre PO. destruct fuel as [|[|[|[|fuel]]]]; [lia|lia|lia|lia|].
    cbn [body num fst snd]. 
    assert (F : fol (lx P) (atom_last (lx P) s) R).
    { apply nfol_fol; [exact NF| |]; unfold atom_last;
        (destruct (needs_quote (atom_prop (lx P) s)); [discriminate|]); unfold after_unquoted;
        destruct (p_type (atom_prop (lx P) s)); try discriminate;
        repeat match goal with |- (if ?b then _ else _) <> _ => destruct b; try discriminate end. 
      all: cbv zeta; repeat match goal with |- (if ?b then _ else _) <> _ => destruct b; try discriminate end. }
    destruct (begin_name P (lx P) pr cp s pre R (map vname vs) eq_refl NC ltac:(assumption) ltac:(assumption) BR F PO) as (q & Q & BG).
    rewrite BG. apply name_stop. exact FOL.
  - match goal with H : _ <= n < _ |- _ => rename H into Bn end.
    assert (CK : check_int n = true).
    { unfold check_int, INT_LOWEST_VALUE, INT_GREATEST_VALUE.
      destruct (Z.leb_spec (- 2 ^ 60) n); [|lia]. destruct (Z.leb_spec n (2 ^ 60 - 1)); [reflexivity|lia]. }
    assert (Bn' := Bn). change (- 2 ^ 60) with (-1152921504606846976) in Bn'. change (2 ^ 60) with 1152921504606846976 in Bn'.
    cbn [body num fst snd tlast] in *. destruct (Z.ltb_spec n 0) as [NG|PS].
    + exists 4%nat. intros fuel LE prec pre PO. destruct fuel as [|[|[|[|fuel]]]]; [lia|lia|lia|lia|].
      assert (B : 0 <= - n < 2 ^ 61) by (change (2 ^ 61) with 2305843009213693952; lia).
      rewrite num_last_neg in NF by exact NG. rewrite dec_neg by exact NG. cbn [app].
      rewrite (term_name _ P prec cp _ [45] false (Pst (dec (- n) ++ R) None (map vname vs))).
      2:{ apply read_in. apply lex_pre; [exact NC|exact PO|]. intros fuel' before. apply lex_minus; assumption. }
      change (cstr [45]) with [45].
      destruct (dec_decimal (- n) B) as ((FD & NE & _) & _).
      rewrite (name_minus _ P prec _ cp false _ (- n) (Pst R None (map vname vs))).
      * rewrite Z.opp_involutive. apply loop_stop; [apply FOL|]. apply pend_in. exact FOL.
      * apply read_in. unfold Lexer_Token. apply lex_dec'; try assumption. destruct (Z.eqb_spec (- n) 0); [lia|exact NF].
      * rewrite Z.opp_involutive. exact CK.
      * cbn [p_inp]. destruct (dec (- n)) as [|c r]; [congruence|]. cbn [app Peek_Char conv_if]. rewrite NC.
        pose proof (Forall_inv FD) as X. cbv beta in X. lia.
    + exists 2%nat. intros fuel LE prec pre PO. destruct fuel as [|[|fuel]]; [lia|lia|].
      assert (B : 0 <= n < 2 ^ 61) by (change (2 ^ 61) with 2305843009213693952; lia).
      rewrite num_last_pos in NF by exact B.
      rewrite (term_int _ P prec cp _ n (Pst R None (map vname vs))); [| |exact CK].
      * apply loop_stop; [apply FOL|]. apply pend_in. exact FOL.
      * apply read_in. apply lex_pre; [exact NC|exact PO|]. intros fuel' before. apply lex_dec'; assumption.
  - rewrite num_list in *. cbn [fst snd] in *.
    assert (EN : nums [a; b] vs = ([fst (num a vs); fst (num b (snd (num a vs)))], snd (num b (snd (num a vs))))).
    { rewrite !nums_cons. reflexivity. }
    destruct (functor_read P (lx P) pr sa [46] [a; b] eq_refl NC ltac:(repeat (constructor; try lia)) ltac:(unfold fits; cbn; lia)
      ltac:(cbn; lia) ltac:(repeat (constructor; try assumption)) ltac:(constructor; [auto|constructor; [auto|constructor]])
      vs OV ltac:(rewrite EN; exact LV) cp tk R R' BR FOL) as (f0 & K).
    exists f0. intros fuel LE prec pre PO. specialize (K fuel LE prec pre PO). rewrite EN in K. exact K.
  - rewrite num_stc in *. cbn [fst snd] in *.
    match goal with H : _ \/ _ |- _ => rename H into ND end.
    destruct (functor_read P (lx P) pr sa f l eq_refl NC ltac:(assumption) ltac:(assumption) ltac:(assumption) ltac:(assumption)
      ltac:(match goal with H : Forall term_ok l |- _ => rename H into FO end; clear - IH FO; rewrite Forall_forall in *; auto)
      vs OV LV cp tk R R' BR FOL) as (f0 & K).
    exists f0. intros fuel LE prec pre PO. specialize (K fuel LE prec pre PO).
    assert (CR : Create_Structure f (fst (nums l vs)) = PStc f (fst (nums l vs))).
    { pose proof (nums_length l vs) as LN. unfold Create_Structure.
      destruct (fst (nums l vs)) as [|x [|y [|z m]]]; try reflexivity.
      cbn [length] in LN. destruct ND as [ND|ND]; [|lia]. rewrite str_eqb_neq by exact ND. reflexivity. }
    rewrite CR in K. exact K.
Qed.

(** * The term read is the one written *)

Lemma vindex_some : forall vs n i, vindex vs n = Some i -> nth_error (rev vs) i = Some n.
Proof.
  induction vs as [|m vs IH]; intros n i E; [discriminate E|]. cbn [vindex] in E. cbn [rev].
  destruct (Z.eqb_spec n m) as [->|N].
  - injection E as <-. rewrite nth_error_app2 by (rewrite rev_length; lia). rewrite rev_length, Nat.sub_diag. reflexivity.
  - specialize (IH n i E). rewrite nth_error_app1; [exact IH|]. apply nth_error_Some. congruence.
Qed.
Lemma vindex_none : forall vs n, vindex vs n = None -> ~ In n vs.
Proof.
  induction vs as [|m vs IH]; intros n E; [auto|]. cbn [vindex] in E. destruct (Z.eqb_spec n m); [discriminate E|].
  intros [Q|Q]; [congruence|]. apply (IH n E Q).
Qed.
Lemma nth_rev_app : forall (w vs : list Z) i n, nth_error (rev vs) i = Some n -> nth_error (rev (w ++ vs)) i = Some n.
Proof. intros w vs i n E. rewrite rev_app_distr. rewrite nth_error_app1; [exact E|]. apply nth_error_Some. congruence. Qed.

Lemma num_same : forall t vs w, same (rev (w ++ snd (num t vs))) t (fst (num t vs)).
Proof.
  induction t as [n|s|n|a b IHa IHb|f l IH] using wterm_ind'; intros vs w.
  - cbn [num]. unfold num_var. destruct (vindex vs n) as [i|] eqn:E; cbn [fst snd]; constructor.
    + apply nth_rev_app. apply vindex_some. exact E.
    + apply nth_rev_app. cbn [rev]. rewrite nth_error_app2 by (rewrite rev_length; lia). rewrite rev_length, Nat.sub_diag. reflexivity.
  - constructor.
  - constructor.
  - rewrite num_list. cbn [fst snd]. constructor; [|apply IHb].
    destruct (num_app b (snd (num a vs))) as (u & E). rewrite E, app_assoc. apply IHa.
  - rewrite num_stc. cbn [fst snd]. constructor. revert vs. induction l as [|a l IHl]; intros vs; [constructor|].
    rewrite nums_cons. cbn [fst snd]. constructor; [|apply IHl; apply (Forall_inv_tail IH)].
    destruct (nums_app l (snd (num a vs))) as (u & E). rewrite E, app_assoc. apply (Forall_inv IH).
Qed.

Lemma num_nodup : forall t vs, NoDup vs -> NoDup (snd (num t vs)).
Proof.
  induction t as [n|s|n|a b IHa IHb|f l IH] using wterm_ind'; intros vs ND.
  - cbn [num]. unfold num_var. destruct (vindex vs n) as [i|] eqn:E; cbn [fst snd]; [exact ND|].
    constructor; [apply vindex_none; exact E|exact ND].
  - exact ND.
  - exact ND.
  - rewrite num_list. cbn [snd]. auto.
  - rewrite num_stc. cbn [snd]. revert vs ND. induction l as [|a l IHl]; intros vs ND; [exact ND|].
    rewrite nums_cons. cbn [snd]. apply IHl; [apply (Forall_inv_tail IH)|]. apply (Forall_inv IH). exact ND.
Qed.
Lemma num_incl : forall t vs, incl (snd (num t vs)) (vars t ++ vs).
Proof.
  induction t as [n|s|n|a b IHa IHb|f l IH] using wterm_ind'; intros vs.
  - cbn [num vars]. unfold num_var. destruct (vindex vs n); cbn [snd app]; [apply incl_tl|]; apply incl_refl.
  - apply incl_refl.
  - apply incl_refl.
  - rewrite num_list. cbn [snd vars]. intros x Hx. apply IHb in Hx. rewrite <- app_assoc. rewrite !in_app_iff in *.
    destruct Hx as [Hx|Hx]; [auto|]. apply IHa in Hx. rewrite in_app_iff in Hx. tauto.
  - rewrite num_stc. cbn [snd vars]. revert vs. induction l as [|a l IHl]; intros vs; [apply incl_refl|].
    rewrite nums_cons. cbn [snd flat_map]. intros x Hx. apply (IHl (Forall_inv_tail IH)) in Hx. rewrite !in_app_iff in *.
    destruct Hx as [Hx|Hx]; [auto|]. apply (Forall_inv IH) in Hx. rewrite in_app_iff in Hx. tauto.
Qed.
Lemma num_count : forall t, (length (snd (num t [])) <= length (nodup Z.eq_dec (vars t)))%nat.
Proof.
  intros t. apply NoDup_incl_length; [apply num_nodup; constructor|]. intros x Hx. apply num_incl in Hx.
  rewrite app_nil_r in Hx. apply nodup_In. exact Hx.
Qed.

(** * The end of the text *)

Lemma lex_stop : forall fuel e cp before i, no_conv e ->
  lexer_token (S fuel) e cp before (46 :: 10 :: i) = Ret (TokStop, false, 10 :: i).
Proof.
  intros fuel e cp before i NC. cbn [lexer_token]. rewrite skip_one by (try assumption; reflexivity).
  cbn [cur inp c_orig Read_Next_Char conv_if]. rewrite NC. reflexivity.
Qed.

Lemma stop_text : forall e w sp, sp = false -> exists pre, pre_ok pre /\
  fst (Write_A_Full_Stop e (Wst w sp)) = pre ++ [46; 10] /\ (forall i, nfol e w (pre ++ 46 :: 10 :: i)).
Proof.
  intros e w sp ->. unfold Write_A_Full_Stop. cbn [last_writing last_is_space].
  destruct w; unfold seqw; rewrite Out_Char_text by apply wok_false; (rewrite Out_Char_text by apply wok_false); cbn [fst];
    first [exists []; split; [left; reflexivity|split; [reflexivity|]]; intros i;
             first [right; split; [solve [auto]|eexists; reflexivity]|left; reflexivity]
          |exists [32]; split; [right; reflexivity|split; [reflexivity|]]; intros i; left; reflexivity].
Qed.

Lemma read_dot : forall P e pr sa t rest, lx P = e -> no_conv e -> term_ok t ->
  Z.of_nat (length (nodup Z.eq_dec (vars t))) <= 1048576 -> inb rest ->
  exists f0, forall fuel, (f0 <= fuel)%nat ->
  let (txt, st) := Write_Term e pr sa t in
  Read_Term fuel P true (txt ++ fst (Write_A_Full_Stop e st) ++ rest) =
  Ret (Some (fst (num t []), map vname (rev (snd (num t []))), 10 :: rest)).
Proof.
  intros P e pr sa t rest EL NC OK LV BR. unfold Write_Term. rewrite (show_text e pr sa t OK) by apply wok_false.
  rewrite lead0. cbn [app]. destruct (stop_text e (tlast e t) false eq_refl) as (pre & PO & -> & NF).
  assert (FOL : follows P false TokStop (pre ++ 46 :: 10 :: rest) (10 :: rest)).
  { split; [right; right; left; reflexivity|].
    assert (K : Lexer_Token (lx P) false (pre ++ 46 :: 10 :: rest) = Ret (TokStop, false, 10 :: rest)).
    { rewrite EL. apply lex_pre; [exact NC|exact PO|]. intros fuel before. apply lex_stop. exact NC. }
    split; [exact K|]. split; [exists TokStop; auto|].
    destruct PO as [-> | ->]; cbn [app Peek_Char conv_if]; rewrite EL, NC; lia. }
  destruct (term_reads P e pr sa EL NC t OK [] ltac:(constructor) ltac:(pose proof (num_count t); lia)
    false TokStop (pre ++ 46 :: 10 :: rest) (10 :: rest)) as (f0 & K);
    [|apply NF|exact FOL|].
  { apply Forall_app. split; [destruct PO as [-> | ->]; repeat (constructor; try lia)|]. repeat (constructor; [lia|]). exact BR. }
  exists f0. intros fuel LE. unfold Read_Term. rewrite <- app_assoc. cbn [app].
  specialize (K fuel LE MAX_PREC [] ltac:(left; reflexivity)). cbn [app map] in K. rewrite K. cbn [pbind].
  rewrite (pend_unget P false TokStop _ _ ltac:(right; right; left; reflexivity)). cbn [pbind p_dico p_inp].
  rewrite map_rev. reflexivity.
Qed.
Lemma read_eof : forall P e pr sa t, lx P = e -> no_conv e -> term_ok t ->
  Z.of_nat (length (nodup Z.eq_dec (vars t))) <= 1048576 ->
  exists f0, forall fuel, (f0 <= fuel)%nat ->
  Read_Term fuel P false (fst (Write_Term e pr sa t)) =
  Ret (Some (fst (num t []), map vname (rev (snd (num t []))), [])).
Proof.
  intros P e pr sa t EL NC OK LV. unfold Write_Term. rewrite (show_text e pr sa t OK) by apply wok_false.
  rewrite lead0. cbn [app fst].
  assert (FOL : follows P false TokEof [] []).
  { split; [right; right; right; reflexivity|]. split; [reflexivity|]. split; [exists TokEof; auto|]. cbn. lia. }
  destruct (term_reads P e pr sa EL NC t OK [] ltac:(constructor) ltac:(pose proof (num_count t); lia)
    false TokEof [] []) as (f0 & K); [constructor|left; exact I|exact FOL|].
  exists f0. intros fuel LE. unfold Read_Term.
  specialize (K fuel LE MAX_PREC [] ltac:(left; reflexivity)). cbn [app map] in K. rewrite app_nil_r in K. rewrite K. cbn [pbind].
  rewrite (pend_unget P false TokEof _ _ ltac:(right; right; right; reflexivity)). cbn [pbind p_dico p_inp].
  rewrite map_rev. reflexivity.
Qed.
