(** Theorems about symbol mangling (C23, C24). *)
Require Import ZArith List Bool Lia.
Require Import Verif.Mangling_Model Verif.Mangling_Proofs.
Import ListNotations.
Open Scope Z_scope.

(** C23: distinct (module, predicate, arity) have distinct symbols.  [None]: no module
    qualification; arity -1: no arity.  Names are sequences of bytes 1..255. *)
Theorem C23_mangle_injective :
  forall m1 p1 a1 m2 p2 a2, Forall byte (norm m1) -> Forall byte p1 -> Forall byte (norm m2) -> Forall byte p2 ->
  -1 <= a1 -> -1 <= a2 -> m1 <> Some [] -> m2 <> Some [] ->
  Mangle m1 p1 a1 = Mangle m2 p2 a2 -> m1 = m2 /\ p1 = p2 /\ a1 = a2.
Proof. exact Mangle_inj. Qed.

(** the symbol is made of letters, digits and underscores *)
Theorem C23_valid_symbol :
  forall m p a, Forall byte (norm m) -> Forall byte p ->
  Forall (fun c => Letter_Digit c = true \/ c = US) (Mangle m p a).
Proof.
  intros m p a Bm Bp.
  assert (Hx : forall v, 0 <= v < 16 -> Letter_Digit (hexd v) = true).
  { intros v R. destruct (hexd_ok v R) as [Q _]. unfold Hexa_Digit in Q. unfold Letter_Digit, Letter.
    apply orb_true_iff in Q as [->|Q]; [now rewrite orb_true_r|]. apply andb_true_iff in Q as [Q1 Q2].
    apply Z.leb_le in Q1, Q2. destruct (Z.leb_spec 65 (hexd v)), (Z.leb_spec (hexd v) 90); cbn; try lia. }
  assert (He : forall s, Forall byte s -> Forall (fun c => Letter_Digit c = true \/ c = US) (Encode_String s)).
  { intros s B. induction B as [|c s Bc B IH]; cbn; constructor; [|constructor; [|exact IH]]; left; apply Hx; unfold byte in Bc; lia. }
  assert (Hl : forall s prev, needs_loop prev s = false -> Forall (fun c => Letter_Digit c = true \/ c = US) s).
  { induction s as [|c s IH]; intros prev Q; [constructor|]. cbn [needs_loop] in Q. destruct (Z.eqb_spec c US).
    - constructor; [auto|]. match type of Q with (if ?b then _ else _) = _ => destruct b end; [discriminate|eauto].
    - destruct (Letter_Digit c) eqn:E; [|discriminate]. cbn [negb] in Q. constructor; [auto|exact (IH _ Q)]. }
  assert (Hn : forall s, String_Needs_Encoding s = false -> Forall (fun c => Letter_Digit c = true \/ c = US) s).
  { intros [|c s] Q; [discriminate|]. cbn [String_Needs_Encoding] in Q. destruct (Letter_Digit c) eqn:E; [|discriminate].
    cbn [negb] in Q. constructor; [auto|exact (Hl _ _ Q)]. }
  assert (Hd : forall f n acc, 0 <= n -> Forall (fun c => Letter_Digit c = true \/ c = US) acc ->
     Forall (fun c => Letter_Digit c = true \/ c = US) (dec_aux f n acc)).
  { induction f as [|f IH]; intros n acc R Fa; cbn [dec_aux]; auto.
    assert (Q : Letter_Digit (48 + n mod 10) = true).
    { unfold Letter_Digit. rewrite isdigit_dec; [now rewrite orb_true_r|]. lia. }
    destruct (n <? 10); [now constructor; auto|]. apply IH; [lia|]. now constructor; auto. }
  unfold Mangle. cbn [app].
  set (me := match match m with Some (c :: s) => Some (c :: s) | _ => None end with
     | Some m => if String_Needs_Encoding m then 2 else 1 | None => 0 end).
  set (pe := if String_Needs_Encoding p then 1 else 0).
  assert (Hme : 0 <= me <= 2) by (unfold me; destruct m as [[|c s]|]; try lia; destruct (String_Needs_Encoding (c :: s)); lia).
  assert (Hpe : 0 <= pe <= 1) by (unfold pe; destruct (String_Needs_Encoding p); lia).
  constructor; [now left|]. constructor.
  { left. unfold Letter_Digit. rewrite isdigit_dec by lia. now rewrite orb_true_r. }
  constructor; [now right|]. apply Forall_app. split.
  - destruct m as [[|c s]|]; try constructor. apply Forall_app. split; [|repeat constructor; now right].
    cbn [norm] in Bm. unfold me. destruct (String_Needs_Encoding (c :: s)) eqn:E; cbn [Z.eqb Pos.eqb]; auto.
  - apply Forall_app. split.
    + unfold pe. destruct (String_Needs_Encoding p) eqn:E; cbn [Z.eqb]; auto.
    + destruct (Z.leb_spec 0 a); [|constructor]. cbn [app]. constructor; [now right|]. constructor; [now right|].
      constructor; [now left|]. apply Hd; [auto|constructor].
Qed.

(** the module '' is not distinguished from the absence of a module *)
Theorem C23_empty_module_refuted : exists m1 m2 p a, m1 <> m2 /\ Mangle m1 p a = Mangle m2 p a.
Proof. exists None, (Some []), [97], 0. split; [discriminate|reflexivity]. Qed.

(** C24: demangling gives back module, name and arity, except when both names need
    encoding *)
Theorem C24_demangle :
  forall m p a, Forall byte (norm m) -> Forall byte p -> 0 <= a <= 1024 -> p <> [] ->
  (String_Needs_Encoding p = false \/ norm m = [] \/ String_Needs_Encoding (norm m) = false) ->
  Demangle true (Mangle m p a) = Some (norm m, p, a, []) /\
  Demangle false (Mangle m p a) = Some (norm m, p, a, []) /\
  Demangle false (Mangle m p (-1)) = Some (norm m, p, -1, []).
Proof.
  intros m p a Bm Bp Ha Np Hk.
  assert (K : if String_Needs_Encoding (norm m) && String_Needs_Encoding p && negb (match norm m with [] => true | _ => false end)
   then 53 < 53 else 52 < 53).
  { destruct Hk as [-> | [-> | ->]].
    - rewrite andb_false_r. cbn. lia.
    - rewrite andb_false_r. lia.
    - cbn. lia. }
  split; [|split]; apply Demangle_Mangle; auto; lia.
Qed.

(** two encoded names ('5') are refused, although String_Needs_Encoding asks for them;
    accepting '5' would be enough: see [C24_demangle_fixed] *)
Theorem C24_both_encoded_refuted : exists m p a, Forall byte m /\ Forall byte p /\ m <> [] /\ p <> [] /\ 0 <= a <= 255 /\
  Demangle true (Mangle (Some m) p a) = None /\ Demangle false (Mangle (Some m) p a) = None.
Proof.
  exists [36; 109], [43], 2. split; [repeat constructor; unfold byte; lia|]. split; [repeat constructor; unfold byte; lia|].
  split; [discriminate|]. split; [discriminate|]. split; [lia|]. split; reflexivity.
Qed.
(** neither is the predicate with the empty name *)
Theorem C24_empty_predicate_refuted : exists a, 0 <= a <= 255 /\ Demangle true (Mangle None [] a) = None.
Proof. exists 0. split; [lia|reflexivity]. Qed.
Theorem C24_demangle_fixed :
  forall m p a, Forall byte (norm m) -> Forall byte p -> 0 <= a <= 1024 ->
  Demangle_gen 54 1024 true true (Mangle m p a) = Some (norm m, p, a, []).
Proof.
  intros m p a Bm Bp Ha. apply Demangle_Mangle; auto; try lia; try discriminate. match goal with |- context [if ?b then _ else _] => destruct b end; lia.
Qed.

(** foo:bar_x/2 and $m:a/0 *)
Example C24_ex :
  Mangle (Some [102; 111; 111]) [98; 97; 114; 95; 120] 2 =
    [88; 50; 95; 102; 111; 111; 95; 95; 98; 97; 114; 95; 120; 95; 95; 97; 50] /\
  Demangle true (Mangle (Some [102; 111; 111]) [98; 97; 114; 95; 120] 2) = Some ([102; 111; 111], [98; 97; 114; 95; 120], 2, []) /\
  Mangle (Some [36; 109]) [97] 255 = [88; 52; 95; 50; 52; 54; 68; 95; 95; 97; 95; 95; 97; 50; 53; 53] /\
  Demangle true (Mangle (Some [36; 109]) [97] 255) = Some ([36; 109], [97], 255, []) /\
  Forall byte [102; 111; 111] /\ String_Needs_Encoding [98; 97; 114; 95; 120] = false.
Proof. split; [reflexivity|]. split; [reflexivity|]. split; [reflexivity|]. split; [reflexivity|].
  split; [repeat constructor; unfold byte; lia|reflexivity]. Qed.
Example C23_ex : Mangle (Some [97]) [98] 1 <> Mangle None [97; 95; 95; 98] 1.
Proof. intros Q. apply C23_mangle_injective in Q; try lia; try discriminate; try (repeat constructor; unfold byte; lia). destruct Q. discriminate. Qed.

Print Assumptions C23_mangle_injective.
Print Assumptions C23_valid_symbol.
Print Assumptions C23_empty_module_refuted.
Print Assumptions C24_demangle.
Print Assumptions C24_both_encoded_refuted.
Print Assumptions C24_empty_predicate_refuted.
Print Assumptions C24_demangle_fixed.
