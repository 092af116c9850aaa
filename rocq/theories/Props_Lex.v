(** C43: an atom written with quoted(true) is read back. *)
Require Import ZArith List Bool Lia.
Require Import Verif.Heap_Model Verif.Lex_Model Verif.Write_Model Verif.Lex_Spec
  Verif.Lex_Proofs Verif.Write_Proofs.
Import ListNotations.
Open Scope Z_scope.

(** the C locale, no conversion, default flags *)
Definition c_env : env := Env (fun _ => false) (fun _ => false) (fun c => c) false false false false.
Definition c_pr : Z -> bool := fun _ => false.
(** a Latin-1 locale, strict ISO *)
Definition l1_env : env :=
  Env (fun c => 223 <=? c) (fun c => (192 <=? c) && (c <? 223)) (fun c => c) true false false true.
Definition l1_pr : Z -> bool := fun c => 160 <=? c.

(** For every name, in every locale: writing the atom gives a text which, whatever is written
    before it and whatever follows (as long as this does not begin with a letter, a digit, a
    graphic character, a quote or NUL), is read as the name of the atom, up to its last
    character. *)
Theorem C43_atom : forall e pr s st txt st' cp rest,
  no_conv e -> bytes s -> fits s -> s <> [91; 93] -> s <> [123; 125] ->
  (last_is_space st = true -> last_writing st = W_NOTHING) ->
  Show_Atom e pr true s st = (txt, st') ->
  Forall (fun c => 0 <= c <= 255) rest -> ends e rest ->
  exists t, Lexer_Token e cp (txt ++ rest) = Ret (t, false, rest) /\ is_name s t.
Proof.
  intros e pr s st txt st' cp rest NC B FT N1 N2 W E BR EN. rewrite Show_Atom_text in E by exact W. injection E as <- <-.
  exists (TokName s (needs_quote (atom_prop e s))). split.
  - assert (K : forall fuel before, lexer_token (S fuel) e cp before (atom_body e pr s ++ rest)
                = Ret (TokName s (needs_quote (atom_prop e s)), false, rest)).
    { intros fuel before. apply lex_atom; try assumption. apply ends_fol. exact EN. }
    rewrite <- app_assoc. unfold Lexer_Token, lead. destruct (space_needed _ _ _); cbn [app]; [rewrite lex_space by exact NC|]; apply K.
  - eexists. split; [reflexivity|]. intros ->. apply comma_quoted.
Qed.
(** it's\n (newline) written behind another quoted atom: a space, then 'it\'\'s\n' *)
Example C43_atom_ex :
  let s := [105; 116; 39; 115; 10; 1; 233] in
  no_conv c_env /\ bytes s /\ fits s /\
  Show_Atom c_env c_pr true s (Wst W_QUOTED false) =
    ([32; 39; 105; 116; 39; 39; 115; 92; 110; 92; 120; 49; 92; 92; 120; 101; 57; 92; 39], Wst W_QUOTED false) /\
  Lexer_Token c_env false [32; 39; 105; 116; 39; 39; 115; 92; 110; 92; 120; 49; 92; 92; 120; 101; 57; 92; 39; 41]
    = Ret (TokName s true, false, [41]) /\
  Show_Atom l1_env l1_pr true [233] (Wst W_IDENTIFIER false) = ([32; 233], Wst W_IDENTIFIER false).
Proof.
  split; [intros c; reflexivity|]. split; [repeat (constructor; [lia|]); constructor|].
  split; [unfold fits; cbn; lia|]. split; [vm_compute; reflexivity|]. split; vm_compute; reflexivity.
Qed.

(** A quoted atom is read back even if the character conversion is on, unless it changes the
    quote. *)
Theorem C43_quoted_converted : forall e pr s st txt st' cp rest,
  conv e 39 = 39 -> bytes s -> fits s -> needs_quote (atom_prop e s) = true ->
  last_writing st = W_NOTHING ->
  Show_Atom e pr true s st = (txt, st') ->
  (rest = [] \/ hd 0 rest <> 39) ->
  Lexer_Token e cp (txt ++ rest) = Ret (TokName s true, false, rest).
Proof.
  intros e pr s st txt st' cp rest CV B FT NQ W E R.
  assert (OK : wok st) by (intros _; exact W).
  rewrite Show_Atom_text in E by exact OK. injection E as <- <-. unfold lead. rewrite W. cbn [space_needed app].
  unfold Lexer_Token. apply lex_quoted_atom; try assumption. destruct rest as [|x r]; [exact I|].
  destruct R as [R|R]; [discriminate R|exact R].
Qed.
Example C43_quoted_converted_ex :
  let e := Env (fun _ => false) (fun _ => false) (fun c => if c =? 97 then 98 else c) false false false false in
  conv e 39 = 39 /\ needs_quote (atom_prop e [97; 32]) = true /\
  Show_Atom e c_pr true [97; 32] (Wst W_NOTHING false) = ([39; 97; 32; 39], Wst W_QUOTED false) /\
  Lexer_Token e true [39; 97; 32; 39] = Ret (TokName [97; 32] true, false, []).
Proof. repeat split. Qed.

(** Atoms, integers, variables, punctuation and spaces written one after the other are read
    back as the same sequence: the spaces put in between are enough. *)
Theorem C43_sequence : forall e pr l st rest,
  no_conv e -> Forall item_ok l -> st = Wst W_NOTHING false ->
  Forall (fun c => 0 <= c <= 255) rest -> ends e rest ->
  exists txt st' toks sp,
    Write_Items e pr l st = (txt, st') /\ tokens false l toks /\ (sp = [] \/ sp = [32]) /\
    read_tokens e (length toks) (txt ++ rest) = Ret (Some (toks, sp ++ rest)).
Proof.
  intros e pr l st rest NC F -> BR E.
  destruct (items_read e pr l (Wst W_NOTHING false) rest NC F wok0 BR E) as (txt & st' & toks & E1 & T & _ & _ & R).
  exists txt, st', toks, (pend st'). split; [exact E1|]. split; [exact T|]. split; [|exact R].
  unfold pend. destruct (last_is_space st'); auto.
Qed.
(** a-=[]0'' 0-5!(_12 ( *)
Example C43_sequence_ex :
  let l := [IAtom [97]; IAtom [45]; IAtom [61]; IAtom [91; 93]; IInt 0; IAtom []; IInt 0; IInt (-5); IAtom [33];
            IPunct 40; IVar 12; ISpace; ISpace; IPunct 40] in
  Forall item_ok l /\
  fst (Write_Items c_env c_pr l (Wst W_NOTHING false)) =
    [97; 45; 32; 61; 91; 93; 48; 32; 39; 39; 48; 45; 53; 33; 40; 95; 49; 50; 32; 40] /\
  read_tokens c_env 15 [97; 45; 32; 61; 91; 93; 48; 32; 39; 39; 48; 45; 53; 33; 40; 95; 49; 50; 32; 40] =
  Ret (Some ([TokName [97] false; TokName [45] false; TokName [61] false; TokPunct 91; TokPunct 93; TokInt 0;
              TokName [] true; TokInt 0; TokName [45] false; TokInt 5; TokName [33] false; TokOpen;
              TokVar [95; 49; 50]; TokPunct 40; TokEof], [])).
Proof.
  split; [repeat (constructor; [cbn; try reflexivity; try exact I; try lia;
            try (split; [repeat (constructor; [lia|]); constructor|unfold fits; cbn; lia])|]); constructor|].
  split; vm_compute; reflexivity.
Qed.

(** An unquoted atom is not read back if the flag char_conversion is on and one of its
    characters is converted. *)
Theorem C43_conversion_refuted : exists e pr s txt st', conv e 39 = 39 /\ bytes s /\ fits s /\
  Show_Atom e pr true s (Wst W_NOTHING false) = (txt, st') /\
  exists t, Lexer_Token e true (txt ++ [32]) = Ret (t, false, [32]) /\ ~ is_name s t.
Proof.
  exists (Env (fun _ => false) (fun _ => false) (fun c => if c =? 97 then 98 else c) false false false false), c_pr, [97], [97], (Wst W_IDENTIFIER false).
  split; [reflexivity|]. split; [repeat (constructor; [lia|]); constructor|]. split; [unfold fits; cbn; lia|].
  split; [reflexivity|]. eexists. split; [reflexivity|]. intros (q & Q & _). discriminate Q.
Qed.

(** A name that does not fit in the token buffer is stored beyond it. *)
Lemma push_while_long : forall e p, no_conv e -> forall s c b i,
  Forall (fun x => p (ty e x) = true) s -> 1048576 <= Z.of_nat (length b + length s) ->
  push_while e p (s ++ i) c b = UB.
Proof.
  intros e p NC. induction s as [|x s IH]; intros c b i F L.
  - cbn [app]. cbn [length] in L.
    assert (P : push b c = UB).
    { unfold push. change LEXER_BIG_BUFFER with 1048576. destruct (Z.ltb_spec (Z.of_nat (length b)) 1048576); [lia|reflexivity]. }
    destruct i; cbn [push_while]; rewrite P; reflexivity.
  - cbn [app push_while]. unfold push. change LEXER_BIG_BUFFER with 1048576.
    destruct (Z.ltb_spec (Z.of_nat (length b)) 1048576); [|reflexivity]. cbn [bind].
    inversion F as [|? ? F1 F2]; subst. rewrite NC, F1. apply IH; [exact F2|]. cbn [length] in *. lia.
Qed.
Lemma long_atom : forall n, 1048576 <= Z.of_nat n -> exists e pr s txt st', no_conv e /\ bytes s /\
  Show_Atom e pr true s (Wst W_NOTHING false) = (txt, st') /\
  forall cp rest, Lexer_Token e cp (txt ++ rest) = UB.
Proof.
  intros n L. set (r := repeat 97 n). set (s := 97 :: r).
  assert (NC : no_conv c_env) by (intros c; reflexivity).
  assert (AL : forallb (fun c => alnum (char_type c_env c)) r = true).
  { apply forallb_forall. intros c Hc. apply repeat_spec in Hc. subst c. reflexivity. }
  assert (NQ : needs_quote (atom_prop c_env s) = false).
  { unfold atom_prop. unfold s at 1 2. cbn [nonempty forallb]. rewrite AL. reflexivity. }
  assert (AB : atom_body c_env c_pr s = s) by (unfold atom_body; rewrite NQ; reflexivity).
  exists c_env, c_pr, s, s, (Wst (atom_last c_env s) false). split; [exact NC|].
  split; [constructor; [lia|apply Forall_forall; intros c Hc; apply repeat_spec in Hc; lia]|].
  split; [rewrite Show_Atom_text by apply wok0; rewrite AB; reflexivity|].
  intros cp rest.
  assert (G : forall fuel, lexer_token (S fuel) c_env cp false (97 :: r ++ rest) = UB).
  { intros fuel. cbn [lexer_token skip_layout]. change (is_LA (ty c_env (conv c_env 97))) with false. cbv iota.
    cbn [cur inp c_orig]. change (conv c_env 97) with 97. change (97 =? -1) with false. change (ty c_env 97) with SL. cbv iota.
    rewrite push_while_long; [reflexivity|exact NC| |].
    - apply Forall_forall. intros c Hc. apply repeat_spec in Hc. subst c. reflexivity.
    - unfold r. rewrite repeat_length. cbn [length]. lia. }
  apply G.
Qed.
Theorem C43_long_atom_refuted : exists e pr s txt st', no_conv e /\ bytes s /\
  Show_Atom e pr true s (Wst W_NOTHING false) = (txt, st') /\
  forall cp rest, Lexer_Token e cp (txt ++ rest) = UB.
Proof. apply (long_atom (Z.to_nat 1048576)). rewrite Z2Nat.id; lia. Qed.

(** NUL is a layout character, but a 0 followed by NUL is read as a hexadecimal number: NUL is
    found by strchr at the end of "'box". *)
Theorem C43_nul_refuted : exists e pr rest txt st', no_conv e /\
  Forall (fun c => 0 <= c <= 255) rest /\ char_type e (hd 1 rest) = LA /\
  Show_Integer e 0 (Wst W_NOTHING false) = (txt, st') /\ pr = c_pr /\
  exists t, Lexer_Token e true (txt ++ rest) = Ret (t, false, []) /\ t = TokInt 255.
Proof.
  exists c_env, c_pr, [0; 102; 102], [48], (Wst W_NUMBER_0 false). split; [intros c; reflexivity|].
  split; [repeat (constructor; [lia|]); constructor|]. split; [reflexivity|]. split; [reflexivity|]. split; [reflexivity|].
  eexists. split; reflexivity.
Qed.

Print Assumptions C43_atom.
Print Assumptions C43_quoted_converted.
Print Assumptions C43_sequence.
Print Assumptions C43_conversion_refuted.
Print Assumptions C43_long_atom_refuted.
Print Assumptions C43_nul_refuted.
