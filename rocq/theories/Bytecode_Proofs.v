(** Proofs for the byte-code (C67, C68). *)
Require Import ZArith List Bool Lia.
Require Import Verif.Bytecode_Model Verif.Bytecode_Spec.
Import ListNotations.
Open Scope Z_scope.
Ltac Zify.zify_post_hook ::= Z.div_mod_to_equations.

(** ** Words *)
Lemma word1 o n x : 0 <= o < 256 -> 0 <= n < 65536 -> 0 <= x < 256 ->
  set_op (set_i8 (set_i16 0 n) x) o = o + 256 * x + 65536 * n.
Proof. intros. unfold set_op, set_i8, set_i16, BC_Op, i8, i16. change (0 / 65536) with 0. change (0 mod 65536) with 0.
  rewrite (Z.mod_small n), (Z.mod_small x), (Z.mod_small o) by lia. replace (0 - 0 * 65536 + n * 65536) with (n * 65536) by lia.
  replace (n * 65536 / 256) with (n * 256) by (replace (n * 65536) with (n * 256 * 256) by lia; now rewrite Z.div_mul by lia).
  rewrite Z.mod_mul by lia. replace (n * 65536 - 0 * 256 + x * 256) with ((n * 256 + x) * 256) by lia. rewrite Z.mod_mul by lia. lia.
Qed.
Lemma word1' o x : 0 <= o < 256 -> 0 <= x < 256 -> set_op (set_i8 0 x) o = o + 256 * x + 65536 * 0.
Proof. intros. rewrite <- (word1 o 0 x) by lia. reflexivity. Qed.
Lemma word2 o n : 0 <= o < 256 -> 0 <= n < 16777216 -> set_op (set_i24 0 n) o = o + 256 * n.
Proof. intros. unfold set_op, set_i24, BC_Op, i24. change (0 / 256) with 0. change (0 mod 16777216) with 0.
  rewrite (Z.mod_small n), (Z.mod_small o) by lia. replace (0 - 0 * 256 + n * 256) with (n * 256) by lia. rewrite Z.mod_mul by lia. lia.
Qed.
Lemma word2' o : 0 <= o < 256 -> set_op 0 o = o + 256 * 0.
Proof. intros. rewrite <- (word2 o 0) by lia. reflexivity. Qed.
Lemma fields1 o n x : 0 <= o < 256 -> 0 <= n < 65536 -> 0 <= x < 256 ->
  let w := o + 256 * x + 65536 * n in BC_Op w = o /\ i8 w = x /\ i16 w = n.
Proof. intros H1 H2 H3 w. unfold w, BC_Op, i8, i16. repeat split; lia. Qed.
Lemma fields2 o n : 0 <= o < 256 -> 0 <= n < 16777216 -> let w := o + 256 * n in BC_Op w = o /\ i24 w = n.
Proof. intros H1 H2 w. unfold w, BC_Op, i24. split; lia. Qed.
Lemma to_int_atom a : 0 <= a < 2 ^ 31 -> to_int (a mod 2 ^ 32) = a.
Proof. intros Q. unfold to_int. change (2 ^ 31) with 2147483648 in *. change (2 ^ 32) with 4294967296.
  rewrite Zmod_mod, (Z.mod_small a) by lia. destruct (Z.ltb_spec a 2147483648); lia. Qed.
Lemma of_u_u d : 0 <= d < 2 ^ 64 -> of_u (u0 d) (u1 d) = d.
Proof. intros Q. unfold of_u, u0, u1. change (2 ^ 64) with (4294967296 * 4294967296) in Q. change (2 ^ 32) with 4294967296.
  assert (0 <= d / 4294967296 < 4294967296) by lia. rewrite (Z.mod_small (d / _)) by lia. lia. Qed.
Lemma to_long_u l : - 2 ^ 63 <= l < 2 ^ 63 -> to_long (of_u (u0 l) (u1 l)) = l.
Proof. intros Q. unfold to_long, of_u, u0, u1. change (2 ^ 63) with 9223372036854775808 in *. change (2 ^ 32) with 4294967296.
  change (2 ^ 64) with 18446744073709551616.
  assert (E : l mod 4294967296 + l / 4294967296 mod 4294967296 * 4294967296 = l mod 18446744073709551616) by lia.
  rewrite E, Zmod_mod. destruct (Z.ltb_spec (l mod 18446744073709551616) 9223372036854775808); lia. Qed.
Lemma fit16 l : - 2 ^ 63 <= l < 2 ^ 63 -> Fit_In_16bits l = true -> 0 <= l < 65536.
Proof. unfold Fit_In_16bits. change (2 ^ 63) with 9223372036854775808. change (2 ^ 64) with 18446744073709551616.
  intros Q E. apply Z.ltb_lt in E. lia. Qed.
Lemma fit24 l : - 2 ^ 63 <= l < 2 ^ 63 -> Fit_In_24bits l = true -> 0 <= l < 16777216.
Proof. unfold Fit_In_24bits. change (2 ^ 63) with 9223372036854775808. change (2 ^ 64) with 18446744073709551616.
  intros Q E. apply Z.ltb_lt in E. lia. Qed.
(** the arity of the caller is lost *)
Lemma caller cf cn : 0 <= cf < 2 ^ 31 ->
  Functor_Of (to_int (Functor_Arity cf cn mod 2 ^ 32)) = cf /\ Arity_Of (to_int (Functor_Arity cf cn mod 2 ^ 32)) = 0.
Proof.
  intros Q. assert (E : Functor_Arity cf cn mod 2 ^ 32 = cf).
  { unfold Functor_Arity. rewrite <- !Z.land_ones, Z.land_lor_distr_l by lia. rewrite (Z.land_ones cf) by lia.
    rewrite (Z.mod_small cf) by (change (2 ^ 31) with 2147483648 in Q; change (2 ^ 32) with 4294967296; lia).
    replace (Z.land (Z.land (cn * 2 ^ 54) (Z.ones 64)) (Z.ones 32)) with 0; [reflexivity|].
    rewrite <- Z.land_assoc. change (Z.land (Z.ones 64) (Z.ones 32)) with (Z.ones 32). rewrite Z.land_ones by lia.
    change (2 ^ 54) with (4194304 * 2 ^ 32). rewrite Z.mul_assoc, Z.mod_mul by (change (2 ^ 32) with 4294967296; lia). reflexivity. }
  rewrite E. assert (T : to_int cf = cf).
  { unfold to_int. change (2 ^ 31) with 2147483648 in *. change (2 ^ 32) with 4294967296. rewrite (Z.mod_small cf) by lia.
    destruct (Z.ltb_spec cf 2147483648); lia. }
  rewrite T. unfold Functor_Of, Arity_Of. change (2 ^ 31) with 2147483648 in *. change (2 ^ 64) with 18446744073709551616.
  change (2 ^ 54) with 18014398509481984. rewrite (Z.mod_small cf 18446744073709551616) by lia. rewrite (Z.mod_small cf) by lia.
  rewrite (Z.div_small cf) by lia. split; [exact T|reflexivity].
Qed.

Lemma of_code_code o : of_code (code o) = Some o.
Proof. destruct o; reflexivity. Qed.
Lemma code_range o : 0 <= code o < 256.
Proof. destruct o; vm_compute; split; congruence. Qed.

(** ** Reading the code back *)
Lemma skipn_nth {A} (l : list A) p x r : skipn p l = x :: r -> nth_error l p = Some x /\ skipn (S p) l = r.
Proof.
  revert l; induction p as [|p IH]; intros [|y l] E; cbn in E; try discriminate E.
  - injection E as -> ->. split; reflexivity.
  - apply IH in E. exact E.
Qed.

Section Emulator.
Variable K : machine.
Variables t t' : table.
Variables cf cn : Z.
Hypothesis T : stable t t'.
Notation enc := (encode t cf cn).

(** one instruction which is neither a call nor the end *)
Definition plain (i : wam) : bool := match i with call _ _ | execute _ _ | proceed | fail => false | _ => true end.

Lemma in_bank_ok {R} x (k : out (M K) R) : 0 <= x < 256 -> in_bank K x k = k.
Proof. intros Q. unfold in_bank, NB_OF_X_REGS. destruct (Z.ltb_spec x 256); [reflexivity|lia]. Qed.
Lemma rdX_ok {R} s x (k : W K -> out (M K) R) : 0 <= x < 256 -> rdX K s x k = k (X K s x).
Proof. intros Q. unfold rdX. now apply in_bank_ok. Qed.

Ltac next_op E := repeat match type of E with context [code ?o + 1] =>
    let c := eval vm_compute in (of_code (code o + 1)) in
    match c with Some ?o' => change (code o + 1) with (code o') in E end end.
Ltac head_word E :=
  first [rewrite word1 in E by (try apply code_range; lia) | rewrite word1' in E by (try apply code_range; lia)
        |rewrite word2 in E by (try apply code_range; lia) | rewrite word2' in E by (apply code_range)].
Ltac fields := match goal with
  | Q : nth_error _ _ = Some (code ?o + 256 * ?x + 65536 * ?n) |- _ =>
    destruct (fields1 (code o) n x (code_range o) ltac:(lia) ltac:(lia)) as (?F1 & ?F2 & ?F3)
  | Q : nth_error _ _ = Some (code ?o + 256 * ?n) |- _ =>
    destruct (fields2 (code o) n (code_range o) ltac:(lia)) as (?F1 & ?F2) end.
Ltac take E := let Q := fresh "Q" in let E' := fresh "E" in
  destruct (skipn_nth _ _ _ _ E) as [Q E']; clear E; rename E' into E.
Ltac run := unfold bc_step; repeat match goal with Q : nth_error ?b ?p = Some _ |- context [nth_error ?b ?p] => rewrite Q end;
  cbv beta iota zeta; fields; repeat match goal with F : BC_Op _ = code _ |- _ => rewrite F; clear F end; rewrite of_code_code; cbv beta iota;
  repeat match goal with F : i8 _ = _ |- _ => rewrite F; clear F | F : i16 _ = _ |- _ => rewrite F; clear F | F : i24 _ = _ |- _ => rewrite F; clear F end;
  rewrite ?rdX_ok, ?in_bank_ok by lia; unfold test; cbn [step rd wr].
Lemma pack (s' : M K) (bc : list Z) q rest : skipn q bc = rest -> exists p', @Go (M K) nat s' q = Go s' p' /\ skipn p' bc = rest.
Proof. intros E. exists q. split; [reflexivity|exact E]. Qed.
Ltac fin := repeat match goal with
  | |- context [match ?o with Some _ => _ | None => _ end] =>
      match o with context [match _ with _ => _ end] => fail 1 | _ => destruct o as [?v|] end
  | |- context [let (_, _) := ?o in _] => destruct o as [?v ?u] end;
  try reflexivity; try (apply pack; assumption).

Lemma plain_ok i rest bc p s : plain i = true -> fits i -> skipn p bc = enc i ++ rest ->
  match step K s i with
  | Some s' => exists p', bc_step K t' bc p s = Go s' p' /\ skipn p' bc = rest
  | None => bc_step K t' bc p s = Fails
  end.
Proof.
  intros P F E. unfold r_fits, x_fits, atom_fits in F.
  destruct i; try discriminate P; cbn [fits] in F; unfold r_fits, x_fits, atom_fits in F; cbn [encode] in E; unfold encode in E; cbn [words] in E.
  all: repeat match goal with Q : _ /\ _ |- _ => destruct Q | Q : exists _, _ |- _ => destruct Q as [? ->] end;
    repeat match goal with r : reg |- _ => destruct r as [?n|?n] end; cbv beta iota in *;
    unfold xy_x0, xy, atom_x0, int_x0 in E; cbn [BC_Arg_X_Or_Y] in E; cbv zeta in E; change (2 ^ 16) with 65536 in *; change (2 ^ 24) with 16777216 in *;
    repeat match type of E with
    | context [Fit_In_16bits (?a mod 2 ^ 32)] =>
        let B := fresh "B" in destruct (Fit_In_16bits (a mod 2 ^ 32)) eqn:B;
        [apply fit16 in B; [rewrite Z.mod_small in E, B by (change (2 ^ 32) with 4294967296 in *; change (2 ^ 31) with 2147483648 in *; lia)
           |change (2 ^ 32) with 4294967296 in *; change (2 ^ 63) with 9223372036854775808; lia]|clear B]
    | context [Fit_In_24bits (?a mod 2 ^ 32)] =>
        let B := fresh "B" in destruct (Fit_In_24bits (a mod 2 ^ 32)) eqn:B;
        [apply fit24 in B; [rewrite Z.mod_small in E, B by (change (2 ^ 32) with 4294967296 in *; change (2 ^ 31) with 2147483648 in *; lia)
           |change (2 ^ 32) with 4294967296 in *; change (2 ^ 63) with 9223372036854775808; lia]|clear B]
    | context [Fit_In_16bits ?l] => let B := fresh "B" in destruct (Fit_In_16bits l) eqn:B; [apply fit16 in B; [|split; assumption]|clear B]
    | context [Fit_In_24bits ?l] => let B := fresh "B" in destruct (Fit_In_24bits l) eqn:B; [apply fit24 in B; [|split; assumption]|clear B]
    end;
    cbn [assemble app] in E; rewrite ?Z.add_0_r in E; next_op E; head_word E; repeat take E; run;
    rewrite ?to_int_atom, ?of_u_u, ?to_long_u by (split; assumption); fin.
Qed.
Hypothesis Cf : 0 <= cf < 2 ^ 31.
(** calls *)
Lemma jump_ok (o : bcop) f n rest bc p : o = CALL \/ o = EXECUTE -> atom_fits f -> 0 <= n < 2 ^ 24 ->
  skipn p bc = assemble (jump o t cf cn f n) ++ rest ->
  exists w, nth_error bc p = Some w /\ i24 w = n /\ nth_error bc (S p) = Some (f mod 2 ^ 32) /\
    match t f n with
    | Some (Pred true q) => BC_Op w = code o + 1 /\ nth_error bc (S (S p)) = Some (u0 q) /\ nth_error bc (S (S (S p))) = Some (u1 q) /\
        skipn (S p + 3) bc = rest
    | _ => BC_Op w = code o /\ nth_error bc (S (S p)) = Some (Functor_Arity cf cn mod 2 ^ 32) /\ skipn (S p + 2) bc = rest
    end.
Proof.
  intros O F N E. change (2 ^ 24) with 16777216 in N. unfold jump in E.
  assert (R : 0 <= code o + 1 < 256) by (destruct O as [-> | ->]; vm_compute; split; congruence).
  pose proof (code_range o) as R'.
  replace (S p + 3)%nat with (S (S (S (S p)))) by lia. replace (S p + 2)%nat with (S (S (S p))) by lia.
  destruct (t f n) as [[[|] q]|]; cbn [assemble app] in E; rewrite word2 in E by lia; repeat take E.
  - exists (code o + 1 + 256 * n). destruct (fields2 (code o + 1) n R N) as (F1 & F2). rewrite F1, F2. repeat split; assumption.
  - exists (code o + 256 * n). destruct (fields2 (code o) n R' N) as (F1 & F2). rewrite F1, F2. repeat split; assumption.
  - exists (code o + 256 * n). destruct (fields2 (code o) n R' N) as (F1 & F2). rewrite F1, F2. repeat split; assumption.
Qed.
Notation same := (same_out K enc).
Lemma native_iff f n : match t f n with Some (Pred true p) => t' f n = Some (Pred true p) /\ 0 <= p < 2 ^ 64
  | _ => forall p, t' f n <> Some (Pred true p) end.
Proof.
  destruct (t f n) as [[[|] q]|] eqn:Q.
  - split; [apply (T f n q), Q|apply (T f n q); exact Q].
  - intros p C. apply (T f n p) in C. congruence.
  - intros p C. apply (T f n p) in C. congruence.
Qed.
Lemma leave_ok (o : bcop) (i : wam) f n rest bc p s : (o = CALL /\ i = call f n) \/ (o = EXECUTE /\ i = execute f n) -> fits i ->
  skipn p bc = enc i ++ flat_map enc rest ->
  same bc (bc_step K t' bc p s) (leave K t' cf 0 f n s (match i with call _ _ => Some rest | _ => None end)).
Proof.
  intros O F E.
  assert (J : atom_fits f /\ 0 <= n < 2 ^ 24) by (destruct O as [(_ & ->)|(_ & ->)]; exact F). destruct J as [Ff Fn].
  assert (E' : skipn p bc = assemble (jump o t cf cn f n) ++ flat_map enc rest) by (destruct O as [(-> & ->)|(-> & ->)]; exact E).
  assert (O' : o = CALL \/ o = EXECUTE) by tauto.
  destruct (jump_ok o f n (flat_map enc rest) bc p O' Ff Fn E') as (w & Q1 & Q2 & Q3 & Q).
  pose proof (native_iff f n) as NI. pose proof (to_int_atom f Ff) as TF. destruct (caller cf cn Cf) as [C1 C2].
  unfold bc_step. rewrite Q1, Q3. cbv beta iota zeta. rewrite TF, Q2. unfold leave.
  destruct (t f n) as [[[|] q]|].
  - destruct Q as (QO & Q4 & Q5 & Q6). destruct NI as [NI R]. rewrite QO, Q4, Q5, NI, (of_u_u q R).
    destruct O as [(-> & ->)|(-> & ->)].
    + change (code CALL + 1) with (code CALL_NATIVE). rewrite of_code_code. cbn [same_out cont_of]. auto.
    + change (code EXECUTE + 1) with (code EXECUTE_NATIVE). rewrite of_code_code. cbn [same_out cont_of]. auto.
  - destruct Q as (QO & Q4 & Q5). rewrite QO, Q4.
    destruct O as [(-> & ->)|(-> & ->)]; rewrite of_code_code; destruct (t' f n) as [[[|] q']|]; try (destruct (NI q' eq_refl)); cbn [same_out cont_of]; auto.
  - destruct Q as (QO & Q4 & Q5). rewrite QO, Q4.
    destruct O as [(-> & ->)|(-> & ->)]; rewrite of_code_code; destruct (t' f n) as [[[|] q']|]; try (destruct (NI q' eq_refl)); cbn [same_out cont_of]; auto.
Qed.
Theorem run_ok l : forall bc p s, Forall fits l -> Exists (fun i => closes i = true) l -> skipn p bc = flat_map enc l ->
  same bc (Emulate_Byte_Code K (S (length l)) t' bc p s) (wam_run K t' cf 0 l s).
Proof.
  induction l as [|i l IH]; intros bc p s F X E; [inversion X|].
  inversion F as [|? ? Fi Fl]; subst. change (flat_map enc (i :: l)) with (enc i ++ flat_map enc l) in E.
  assert (X' : closes i = true \/ Exists (fun i => closes i = true) l) by (inversion X; auto). clear X.
  change (length (i :: l)) with (S (length l)).
  destruct (plain i) eqn:Pi.
  - pose proof (plain_ok i (flat_map enc l) bc p s Pi Fi E) as Q.
    assert (W : wam_run K t' cf 0 (i :: l) s = match step K s i with Some s => wam_run K t' cf 0 l s | None => Fails end)
      by (destruct i; try discriminate Pi; reflexivity). rewrite W.
    assert (X : Exists (fun i => closes i = true) l) by (destruct X' as [X|X]; [destruct i; discriminate|exact X]).
    change (Emulate_Byte_Code K (S (S (length l))) t' bc p s) with
      (match bc_step K t' bc p s with Go s p => Emulate_Byte_Code K (S (length l)) t' bc p s | r => r end).
    destruct (step K s i) as [s'|].
    + destruct Q as (p' & -> & E'). now apply IH.
    + rewrite Q. exact Logic.I.
  - assert (G : forall r', same bc (bc_step K t' bc p s) r' -> same bc (Emulate_Byte_Code K (S (S (length l))) t' bc p s) r').
    { intros r' Q. cbn [Emulate_Byte_Code]. destruct (bc_step K t' bc p s); auto; destruct Q. }
    apply G. clear G X'. destruct i as [| | | | | | | | | | | | | | | | | | | | | | | | | | | | | |f n|f n| | | | |]; try discriminate Pi.
    + exact (leave_ok CALL (call f n) f n l bc p s (or_introl (conj eq_refl eq_refl)) Fi E).
    + exact (leave_ok EXECUTE (execute f n) f n l bc p s (or_intror (conj eq_refl eq_refl)) Fi E).
    + cbn [encode words assemble app] in E. unfold encode in E. cbn [words assemble app] in E. rewrite word2' in E by apply code_range. take E.
      unfold bc_step. rewrite Q. cbv beta iota zeta. destruct (fields2 (code PROCEED) 0 (code_range _) ltac:(lia)) as (F1 & F2).
      rewrite F1, of_code_code. reflexivity.
    + unfold encode in E. cbn [words assemble app] in E. rewrite word2' in E by apply code_range. take E.
      unfold bc_step. rewrite Q. cbv beta iota zeta. destruct (fields2 (code FAIL) 0 (code_range _) ltac:(lia)) as (F1 & F2).
      rewrite F1, of_code_code. exact Logic.I.
Qed.
End Emulator.

(** ** The buffer *)
Lemma put_ok l : forall b, 0 <= blocks b -> Z.of_nat (length (written b) + length l) <= blocks b * BC_BLOCK_SIZE ->
  put l b = Some (Buffer (blocks b) (written b ++ l)).
Proof.
  induction l as [|w l IH]; intros [n ws] B L; cbn [put written blocks] in *; [now rewrite app_nil_r|].
  cbn [length] in L. destruct (Z.ltb_spec (Z.of_nat (length ws)) (n * BC_BLOCK_SIZE)); [|lia].
  rewrite IH; cbn [written blocks]; [now rewrite <- app_assoc|exact B|rewrite app_length; cbn [length]; lia].
Qed.
Lemma encode_length t cf cn i : (1 <= length (encode t cf cn i) <= 4)%nat.
Proof.
  destruct i; unfold encode; cbn [words]; unfold xy_x0, xy, atom_x0, int_x0, jump;
    repeat match goal with r : reg |- _ => destruct r end; cbn [BC_Arg_X_Or_Y]; cbv zeta;
    repeat match goal with |- context [if ?c then _ else _] => destruct c end; cbn [assemble length]; try lia;
    match goal with |- context [match ?o with Some _ => _ | None => _ end] => destruct o as [[[|] ?]|] end; cbn [assemble length]; lia.
Qed.
Lemma emit_ok t cf cn l : forall b, 0 <= blocks b -> Z.of_nat (length (written b)) <= blocks b * BC_BLOCK_SIZE ->
  exists b', Emit t cf cn l b = Some b' /\ written b' = written b ++ flat_map (encode t cf cn) l /\ blocks b <= blocks b' /\
    Z.of_nat (length (written b')) <= blocks b' * BC_BLOCK_SIZE.
Proof.
  induction l as [|i l IH]; intros b B L; cbn [Emit flat_map].
  - exists b. rewrite app_nil_r. repeat split; auto; lia.
  - pose proof (encode_length t cf cn i) as EL. unfold Emit_Inst. cbv zeta.
    set (b1 := if blocks b * BC_BLOCK_SIZE <=? Z.of_nat (length (written b)) + 3 then Buffer (blocks b + 1) (written b) else b).
    assert (B1 : written b1 = written b /\ blocks b <= blocks b1 /\ Z.of_nat (length (written b)) + 3 < blocks b1 * BC_BLOCK_SIZE).
    { unfold b1. destruct (Z.leb_spec (blocks b * BC_BLOCK_SIZE) (Z.of_nat (length (written b)) + 3)); cbn [written blocks];
        unfold BC_BLOCK_SIZE in *; repeat split; lia. }
    destruct B1 as (B1 & B2 & B3).
    rewrite put_ok; [|lia|rewrite B1; lia].
    destruct (IH (Buffer (blocks b1) (written b1 ++ encode t cf cn i))) as (b' & Q1 & Q2 & Q3 & Q4); cbn [blocks written] in *; [lia|rewrite app_length, B1; lia|].
    exists b'. split; [exact Q1|]. split; [rewrite Q2, B1, <- app_assoc; reflexivity|]. clearbody b1. split; [lia|exact Q4].
Qed.

(** ** The continuation *)
Lemma one_succ j : 0 <= j -> Z.testbit 1 (Z.succ j) = false.
Proof. intros J. change 1 with (2 * 0 + 1). rewrite Z.testbit_odd_succ by lia. apply Z.testbit_0_l. Qed.
Lemma pc_ok base p d : base mod 4 = 0 -> 0 <= base -> restore_pc base (save_pc base p d) = (Z.of_nat p, d).
Proof.
  intros B P. unfold restore_pc, save_pc.
  assert (E : base + 4 * Z.of_nat p = 2 * (2 * (base / 4) + 2 * Z.of_nat p)) by lia.
  rewrite E. set (k := 2 * (base / 4) + 2 * Z.of_nat p) in *.
  assert (L : Z.lor (2 * k) (Z.b2z d) = 2 * k + Z.b2z d).
  { destruct d; cbn [Z.b2z]; [|rewrite Z.lor_0_r; lia]. symmetry.
    apply Z.bits_inj'. intros j J. destruct (Z.eq_dec j 0) as [->|N].
    - rewrite Z.testbit_odd_0, Z.lor_spec. cbn. now rewrite orb_true_r.
    - replace j with (Z.succ (j - 1)) by lia. rewrite Z.testbit_odd_succ by lia. rewrite Z.lor_spec, Z.testbit_even_succ by lia.
      now rewrite one_succ, orb_false_r by lia. }
  rewrite L. f_equal.
  - assert (N : Z.land (2 * k + Z.b2z d) (Z.lnot 1) = 2 * k).
    { apply Z.bits_inj'. intros j J. rewrite Z.land_spec, Z.lnot_spec by lia. destruct (Z.eq_dec j 0) as [->|N].
      - rewrite Z.testbit_even_0. cbn. now rewrite andb_false_r.
      - replace j with (Z.succ (j - 1)) by lia. rewrite Z.testbit_even_succ by lia.
        replace (Z.testbit (2 * k + Z.b2z d) (Z.succ (j - 1))) with (Z.testbit k (j - 1)).
        + now rewrite one_succ, andb_true_r by lia.
        + destruct d; cbn [Z.b2z]; [now rewrite Z.testbit_odd_succ by lia|now rewrite Z.add_0_r, Z.testbit_even_succ by lia]. }
    rewrite N. unfold k. lia.
  - destruct d; cbn [Z.b2z]; [apply Z.testbit_odd_0|rewrite Z.add_0_r; apply Z.testbit_even_0].
Qed.


(** ** Registers of a call *)
Lemma copy_back_ok l : forall n i rest b, length l = S n -> exists b', copy_back n i (l ++ rest) b = Some (b', rest) /\
  (forall k v, nth_error l k = Some v -> b' (i + Z.of_nat k) = v) /\ (forall j, j < i \/ i + Z.of_nat (S n) <= j -> b' j = b j).
Proof.
  induction l as [|v l IH]; intros n i rest b L; [discriminate L|]. cbn [app copy_back]. cbn [length] in L. injection L as L. destruct n as [|n].
  - destruct l; [|discriminate L]. exists (set_bank b i v). split; [reflexivity|]. split.
    + intros [|k] u Q; [|destruct k; discriminate Q]. injection Q as <-. unfold set_bank. destruct (Z.eqb_spec (i + Z.of_nat 0) i); lia.
    + intros j J. unfold set_bank. destruct (Z.eqb_spec j i); lia.
  - destruct (IH n (i + 1) rest (set_bank b i v) L) as (b' & E & Q1 & Q2). exists b'. split; [exact E|]. split.
    + intros [|k] u Q; cbn in Q.
      * injection Q as <-. rewrite Q2 by lia. unfold set_bank. destruct (Z.eqb_spec (i + Z.of_nat 0) i); lia.
      * replace (i + Z.of_nat (S k)) with (i + 1 + Z.of_nat k) by lia. now apply Q1.
    + intros j J. rewrite Q2 by lia. unfold set_bank. destruct (Z.eqb_spec j i); lia.
Qed.
Lemma a_regs_app b n m : A_regs b (n + m) = A_regs b n ++ map (fun i => b (Z.of_nat i)) (seq n m).
Proof. unfold A_regs. now rewrite seq_app, map_app. Qed.
Lemma emulate_pred_ok b arity choice d b' w : Emulate_Pred b arity choice d = (b', w) ->
  (forall i, i <> Z.of_nat arity -> i <> Z.of_nat arity + 1 -> b' i = b i) /\ b' (Z.of_nat arity) = choice /\
  forall c, exists b2, Emulate_Pred_Alt c arity w = Some (b2, d) /\ (forall i, 0 <= i < Z.of_nat arity -> b2 i = b i) /\
    b2 (Z.of_nat arity) = choice /\ (forall i, i < 0 \/ Z.of_nat arity < i -> b2 i = c i).
Proof.
  unfold Emulate_Pred. intros Q. injection Q as <- <-.
  set (b' := set_bank (set_bank b (Z.of_nat arity) choice) (Z.of_nat arity + 1) d).
  assert (B1 : forall i, i <> Z.of_nat arity -> i <> Z.of_nat arity + 1 -> b' i = b i).
  { intros i I1 I2. unfold b', set_bank. destruct (Z.eqb_spec i (Z.of_nat arity + 1)); [lia|]. destruct (Z.eqb_spec i (Z.of_nat arity)); [lia|reflexivity]. }
  assert (B2 : b' (Z.of_nat arity) = choice).
  { unfold b', set_bank. destruct (Z.eqb_spec (Z.of_nat arity) (Z.of_nat arity + 1)); [lia|]. now rewrite Z.eqb_refl. }
  assert (B3 : b' (Z.of_nat arity + 1) = d) by (unfold b', set_bank; now rewrite Z.eqb_refl).
  split; [exact B1|]. split; [exact B2|]. intros c. clearbody b'. unfold Emulate_Pred_Alt.
  replace (arity + 2)%nat with (S arity + 1)%nat by lia. rewrite a_regs_app. cbn [seq map].
  replace (Z.of_nat (S arity)) with (Z.of_nat arity + 1) by lia. rewrite B3.
  destruct (copy_back_ok (A_regs b' (S arity)) arity 0 [d] c) as (b2 & -> & Q1 & Q2); [unfold A_regs; now rewrite map_length, seq_length|].
  exists b2. split; [reflexivity|].
  assert (N : forall k, (k < S arity)%nat -> b2 (Z.of_nat k) = b' (Z.of_nat k)).
  { intros k L. specialize (Q1 k (b' (Z.of_nat k))). rewrite Z.add_0_l in Q1. apply Q1. unfold A_regs.
    change (b' (Z.of_nat k)) with ((fun i => b' (Z.of_nat i)) k). apply map_nth_error.
    rewrite (nth_error_nth' (seq 0 (S arity)) 0%nat) by (now rewrite seq_length). now rewrite seq_nth. }
  split; [|split].
  - intros i R. replace i with (Z.of_nat (Z.to_nat i)) by lia. rewrite N by lia. apply B1; lia.
  - rewrite N by lia. exact B2.
  - intros i R. apply Q2. lia.
Qed.
