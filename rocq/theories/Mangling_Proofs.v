(** Demangling inverts mangling. *)
Require Import ZArith List Bool Lia.
Require Import Verif.Mangling_Model.
Import ListNotations.
Open Scope Z_scope.
Ltac Zify.zify_post_hook ::= Z.div_mod_to_equations.

Definition byte (c : Z) : Prop := 1 <= c <= 255.

Lemma hexd_ok v : 0 <= v < 16 -> Hexa_Digit (hexd v) = true /\ Hex_Num (hexd v) = v.
Proof.
  intros R. assert (Q : v = 0 \/ v = 1 \/ v = 2 \/ v = 3 \/ v = 4 \/ v = 5 \/ v = 6 \/ v = 7 \/ v = 8 \/ v = 9 \/ v = 10 \/
    v = 11 \/ v = 12 \/ v = 13 \/ v = 14 \/ v = 15) by lia.
  repeat destruct Q as [->|Q]; try (split; reflexivity). subst. split; reflexivity.
Qed.

(** what follows an encoded string is not a pair of hexadecimal digits *)
Definition stops (r : str) : Prop := match r with [] => True | a :: _ => a = US end.
Lemma decode_encode s r : Forall byte s -> stops r -> forall acc,
  Decode_String (Encode_String s ++ r) acc = (acc ++ s, r).
Proof.
  intros Fb St. induction Fb as [|c s Bc Fb IH]; intros acc.
  - cbn [Encode_String flat_map app]. rewrite app_nil_r. destruct r as [|a [|b r]]; auto. cbn in St. subst a. reflexivity.
  - cbn [Encode_String flat_map hex2 app]. cbn [Decode_String]. unfold byte in Bc.
    destruct (hexd_ok (c / 16) ltac:(lia)) as [-> ->]. destruct (hexd_ok (c mod 16) ltac:(lia)) as [-> ->]. cbn [andb].
    change (flat_map hex2 s) with (Encode_String s). rewrite IH. rewrite <- app_assoc. cbn [app]. do 3 f_equal. lia.
Qed.

(** what follows a plain string *)
Definition follows (r : str) : Prop := r = [] \/ exists r', r = US :: US :: r'.
Lemma ld_us c : Letter_Digit c = true -> c <> US.
Proof. intros Q ->. discriminate. Qed.
Lemma copy_plain r : follows r -> forall s prev acc, needs_loop prev s = false -> (s = [] -> prev <> US) ->
  copy_loop prev (s ++ r) acc = (acc ++ s, r).
Proof.
  intros Fr. induction s as [|c s IH]; intros prev acc Q N.
  - cbn [app]. rewrite app_nil_r. specialize (N eq_refl). destruct Fr as [->|[r' ->]]; auto.
    cbn [copy_loop]. rewrite Z.eqb_refl. apply Z.eqb_neq in N. rewrite N. cbn [orb].
    now rewrite removelast_last.
  - cbn [needs_loop] in Q. cbn [app copy_loop]. destruct (c =? US) eqn:Ec.
    + destruct s as [|d s]; [rewrite orb_true_r in Q; discriminate|]. rewrite orb_false_r in Q.
      destruct (prev =? US); [discriminate|]. cbn [orb app]. change (d :: s ++ r) with ((d :: s) ++ r).
      rewrite IH; auto; [|discriminate]. now rewrite <- app_assoc.
    + destruct (Letter_Digit c) eqn:Ld; [|discriminate]. cbn [negb] in *.
      rewrite IH; auto; [|intros _; now apply ld_us]. now rewrite <- app_assoc.
Qed.
Lemma copy_not_encoded s r : String_Needs_Encoding s = false -> follows r ->
  Copy_Not_Encoded_String (s ++ r) = Some (s, r).
Proof.
  destruct s as [|c s]; [discriminate|]. cbn [String_Needs_Encoding]. destruct (Letter_Digit c) eqn:Ld; [|discriminate].
  cbn [negb]. intros Q Fr. cbn [app Copy_Not_Encoded_String]. rewrite Ld. cbn [negb].
  rewrite copy_plain; auto. intros _. now apply ld_us.
Qed.

Lemma isdigit_dec v : 0 <= v < 10 -> isdigit (48 + v) = true.
Proof. intros R. unfold isdigit. destruct (Z.leb_spec 48 (48 + v)), (Z.leb_spec (48 + v) 57); cbn; auto; lia. Qed.
Lemma dec_aux_ok f : forall n acc, 0 <= n < Z.of_nat f -> strtoul (dec_aux f n acc) 0 = strtoul acc n.
Proof.
  induction f as [|f IH]; intros n acc R; [lia|]. cbn [dec_aux]. destruct (Z.ltb_spec n 10).
  - cbn [strtoul]. rewrite isdigit_dec by lia. f_equal. lia.
  - rewrite IH by lia. cbn [strtoul]. rewrite isdigit_dec by lia. f_equal. lia.
Qed.
Lemma dec_aux_head f : forall n acc, 0 <= n < Z.of_nat f -> exists d r, dec_aux f n acc = d :: r /\ isdigit d = true.
Proof.
  induction f as [|f IH]; intros n acc R; [lia|]. cbn [dec_aux]. destruct (Z.ltb_spec n 10).
  - eexists. eexists. split; [reflexivity|]. apply isdigit_dec. lia.
  - apply IH. lia.
Qed.

Definition norm (m : option str) : str := match m with Some s => s | None => [] end.
Theorem Demangle_Mangle kmax amax (empty_ok strict : bool) m p a :
  Forall byte (norm m) -> Forall byte p -> a <= amax ->
  (if strict then 0 <= a else -1 <= a) -> (empty_ok = false -> p <> []) ->
  (if String_Needs_Encoding (norm m) && String_Needs_Encoding p && negb (match norm m with [] => true | _ => false end)
   then 53 < kmax else 52 < kmax) ->
  Demangle_gen kmax amax empty_ok strict (Mangle m p a) = Some (norm m, p, a, []).
Proof.
  intros Bm Bp Ha Hs He Hk.
  set (tail := if 0 <=? a then [US; US; 97] ++ dec a else []).
  assert (Ft : follows tail) by (unfold tail; destruct (0 <=? a); [right; eexists; reflexivity|now left]).
  assert (St : stops tail) by (destruct Ft as [->|[r' ->]]; cbn; auto).
  assert (Tail : forall m' : str, (let '(arity, s) :=
              match tail with
              | a :: b :: c :: s' =>
                if (a =? US) && (b =? US) && (c =? 97) then
                  let '(v, r) := strtoul s' 0 in
                  (match s' with
                   | d :: _ => if isdigit d then v else -1
                   | [] => -1
                   end, r)
                else (-1, tail)
              | _ => (-1, tail)
              end in
            let bad := (arity <? 0) || (amax <? arity) ||
                       match s with c :: _ => isalnum c || (c =? US) | [] => false end in
            if bad then if strict then None else Some (m', p, -1, s)
            else Some (m', p, arity, s)) = Some (m', p, a, [])).
  { intros m'. unfold tail. destruct (Z.leb_spec 0 a) as [R|R].
    - cbn [app]. rewrite !Z.eqb_refl. cbn [andb]. unfold dec.
      rewrite dec_aux_ok by lia. destruct (dec_aux_head (S (Z.to_nat a)) a [] ltac:(lia)) as (d & r & -> & ->).
      cbn [strtoul]. destruct (Z.ltb_spec a 0); [lia|]. destruct (Z.ltb_spec amax a); [lia|]. reflexivity.
    - destruct strict; [lia|]. assert (a = -1) by lia. subst a. reflexivity. }
  assert (Pred : (if (if String_Needs_Encoding p then 1 else 0) =? 0
      then Copy_Not_Encoded_String ((if (if String_Needs_Encoding p then 1 else 0) =? 0 then p else Encode_String p) ++ tail)
      else Some (Decode_String ((if (if String_Needs_Encoding p then 1 else 0) =? 0 then p else Encode_String p) ++ tail) [])) =
      Some (p, tail)).
  { destruct (String_Needs_Encoding p) eqn:Np; cbn [Z.eqb].
    - now rewrite decode_encode.
    - now apply copy_not_encoded. }
  assert (Em : negb empty_ok && match p with [] => true | _ => false end = false).
  { destruct empty_ok; auto. destruct p; auto. now destruct (He eq_refl). }
  unfold Mangle. fold tail.
  set (pe := if String_Needs_Encoding p then 1 else 0) in *.
  assert (Hpe : pe = 0 \/ pe = 1) by (unfold pe; destruct (String_Needs_Encoding p); auto).
  set (me := match match m with Some (c :: s) => Some (c :: s) | _ => None end with
     | Some m => if String_Needs_Encoding m then 2 else 1 | None => 0 end).
  assert (Hme : me = 0 \/ me = 1 \/ me = 2).
  { unfold me. destruct m as [[|c s]|]; auto. destruct (String_Needs_Encoding (c :: s)); auto. }
  assert (Hk2 : 48 + (2 * me + pe) < kmax).
  { unfold me, pe. destruct m as [[|c s]|]; cbn [norm] in Hk.
    - rewrite andb_false_r in Hk. destruct (String_Needs_Encoding p); lia.
    - cbn [negb] in Hk. rewrite andb_true_r in Hk. destruct (String_Needs_Encoding (c :: s)), (String_Needs_Encoding p); cbn in Hk; lia.
    - rewrite andb_false_r in Hk. destruct (String_Needs_Encoding p); lia. }
  cbn [app]. unfold Demangle_gen. rewrite Z.eqb_refl. cbn [negb orb].
  destruct (Z.ltb_spec (48 + (2 * me + pe)) 48); [lia|]. destruct (Z.leb_spec kmax (48 + (2 * me + pe))); [lia|].
  cbn [orb]. rewrite Z.eqb_refl. cbn [negb].
  replace ((48 + (2 * me + pe) - 48) / 2) with me by lia. replace ((48 + (2 * me + pe) - 48) mod 2) with pe by lia.
  set (Mod := if me =? 0 then _ else _).
  assert (Em' : Mod = Some (norm m, (if pe =? 0 then p else Encode_String p) ++ tail)).
  { unfold Mod. destruct m as [[|c s]|]; auto. cbn [norm] in *. unfold me.
    destruct (String_Needs_Encoding (c :: s)) eqn:Nm.
    - cbn [Z.eqb Pos.eqb]. rewrite <- !app_assoc. cbn [app]. rewrite decode_encode; auto. cbn. auto.
    - cbn [Z.eqb Pos.eqb]. rewrite <- !app_assoc. rewrite copy_not_encoded; auto. right. eexists. reflexivity. }
  rewrite Em'. rewrite Pred. rewrite Em. apply Tail.
Qed.

Lemma norm_inj m1 m2 : m1 <> Some [] -> m2 <> Some [] -> norm m1 = norm m2 -> m1 = m2.
Proof. destruct m1 as [[|]|], m2 as [[|]|]; cbn; congruence. Qed.
Theorem Mangle_inj m1 p1 a1 m2 p2 a2 : Forall byte (norm m1) -> Forall byte p1 -> Forall byte (norm m2) -> Forall byte p2 ->
  -1 <= a1 -> -1 <= a2 -> m1 <> Some [] -> m2 <> Some [] ->
  Mangle m1 p1 a1 = Mangle m2 p2 a2 -> m1 = m2 /\ p1 = p2 /\ a1 = a2.
Proof.
  intros B1 B2 B3 B4 A1 A2 N1 N2 Q. set (am := Z.max a1 a2).
  assert (Q1 := Demangle_Mangle 54 am true false m1 p1 a1 B1 B2 ltac:(lia) A1 ltac:(discriminate)
    ltac:(destruct (_ && _ && _); lia)).
  assert (Q2 := Demangle_Mangle 54 am true false m2 p2 a2 B3 B4 ltac:(lia) A2 ltac:(discriminate)
    ltac:(destruct (_ && _ && _); lia)).
  rewrite Q, Q2 in Q1. injection Q1 as E1 E2 E3. split; [now apply norm_inj|auto].
Qed.
