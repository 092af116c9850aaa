(** Proofs for Props_Parse: reading ends, and does nothing undefined (C58). *)
Require Import ZArith List Bool Lia.
Require Import Verif.Heap_Model Verif.Lex_Model Verif.Write_Model Verif.Lex_Spec Verif.Lex_Proofs
  Verif.Write_Proofs Verif.Parse_Model Verif.Parse_Spec.
Import ListNotations.
Open Scope Z_scope.

(** * Positions in the text *)

Definition suf (j i : list Z) : Prop := exists u, i = u ++ j.
Lemma suf_refl : forall i, suf i i. Proof. intros i. exists []. reflexivity. Qed.
Lemma suf_trans : forall a b c, suf a b -> suf b c -> suf a c.
Proof. intros a b c (u & ->) (v & ->). exists (v ++ u). apply app_assoc. Qed.
Lemma suf_cons : forall x j i, suf (x :: j) i -> suf j i.
Proof. intros x j i (u & ->). exists (u ++ [x]). rewrite <- app_assoc. reflexivity. Qed.
Lemma suf_one : forall x j, suf j (x :: j). Proof. intros x j. exists [x]. reflexivity. Qed.
Lemma suf_len : forall j i, suf j i -> (length j <= length i)%nat.
Proof. intros j i (u & ->). rewrite app_length. lia. Qed.
Lemma suf_nonneg : forall j i, suf j i -> nonneg i -> nonneg j.
Proof. intros j i (u & ->) N. apply Forall_app in N. apply N. Qed.
Lemma suf_escapes : forall j i, suf j i -> short_escapes i -> short_escapes j.
Proof. intros j i (t & ->) S u v w -> F. apply (S (t ++ u) v w); [rewrite <- app_assoc; reflexivity|exact F]. Qed.
Lemma suf_names : forall e j i, suf j i -> short_names e i -> short_names e j.
Proof. intros e j i (t & ->) S u v w -> F. apply (S (t ++ u) v w); [rewrite <- app_assoc; reflexivity|exact F]. Qed.

(** the scanner has read the first character of j *)
Definition at_ (j : list Z) : scan := match j with [] => Scan [] (-1) (-1) | x :: r => Scan r x x end.
Lemma read_at : forall e cv j, no_conv e -> Read_Next_Char e cv j = at_ j.
Proof. intros e cv [|x r] NC; [reflexivity|]. cbn [Read_Next_Char at_]. unfold conv_if. destruct cv; [rewrite NC|]; reflexivity. Qed.
Lemma unget_at : forall j, nonneg j -> unget (c_orig (at_ j)) (inp (at_ j)) = j.
Proof.
  intros [|x r] N; [reflexivity|]. cbn [at_ c_orig inp]. unfold unget. pose proof (Forall_inv N) as B. cbv beta in B.
  destruct (Z.eqb_spec x (-1)); [lia|reflexivity].
Qed.
Lemma inp_at : forall j, suf (inp (at_ j)) j.
Proof. intros [|x r]; [apply suf_refl|apply suf_one]. Qed.

(** * Pushing into the token buffer *)

Lemma push_while_total : forall e p, no_conv e -> forall i c b,
  Z.of_nat (length b) + Z.of_nat (length i) < 1048576 ->
  exists v j, push_while e p i c b = Ret (rev v ++ c :: b, at_ j) /\ i = v ++ j /\
    Forall (fun x => p (ty e x) = true) v /\ next_not e p j.
Proof.
  intros e p NC. induction i as [|x r IH]; intros c b L; cbn [push_while].
  - rewrite push_ok by lia. cbn [bind]. exists [], []. split; [reflexivity|]. split; [reflexivity|]. split; [constructor|exact I].
  - rewrite push_ok by lia. cbn [bind]. rewrite NC. destruct (p (ty e x)) eqn:E.
    + destruct (IH x (c :: b)) as (v & j & E1 & -> & F & N); [cbn [length] in L |- *; lia|].
      exists (x :: v), j. split; [|split; [reflexivity|split; [constructor; assumption|exact N]]]. rewrite E1. cbn [rev]. rewrite <- app_assoc. reflexivity.
    + exists [], (x :: r). split; [reflexivity|]. split; [reflexivity|]. split; [constructor|exact E].
Qed.
Lemma while_push_total : forall e p, no_conv e -> p C0 = false -> forall j b,
  Z.of_nat (length b) + Z.of_nat (length j) <= 1048576 ->
  exists v j', while_push e p (at_ j) b = Ret (rev v ++ b, at_ j') /\ j = v ++ j' /\ Forall (fun x => p (ty e x) = true) v.
Proof.
  intros e p NC PC0 [|x r] b L; unfold while_push.
  - cbn [at_ cur]. change (ty e (-1)) with C0. rewrite PC0. exists [], []. split; [reflexivity|]. split; [reflexivity|constructor].
  - cbn [at_ cur inp]. destruct (p (ty e x)) eqn:E.
    + destruct (push_while_total e p NC r x b) as (v & j & E1 & -> & F & N); [cbn [length] in L; lia|].
      exists (x :: v), j. split; [|split; [reflexivity|constructor; assumption]]. rewrite E1. cbn [rev]. rewrite <- app_assoc. reflexivity.
    + exists [], (x :: r). split; [reflexivity|]. split; [reflexivity|constructor].
Qed.

Lemma strchr_eof : forall f, Forall (fun c => 0 <= c < 255) f -> strchr f (-1) = None.
Proof.
  intros f F. unfold strchr. change ((-1) mod 256) with 255.
  assert (K : forall g k, Forall (fun c => 0 <= c < 255) g -> index_of g 255 k = None).
  { induction g as [|x g IH]; intros k G; [reflexivity|]. cbn [index_of]. pose proof (Forall_inv G) as B. cbv beta in B.
    destruct (Z.eqb_spec x 255); [lia|]. apply IH. apply (Forall_inv_tail G). }
  apply K. apply Forall_app. split; [exact F|]. constructor; [lia|constructor].
Qed.
Lemma strchr_push_total : forall e f, no_conv e -> strchr f (-1) = None -> forall j b,
  Z.of_nat (length b) + Z.of_nat (length j) <= 1048576 ->
  exists v j', strchr_push e f (inp (at_ j)) (c_orig (at_ j)) (cur (at_ j)) b = Ret (rev v ++ b, at_ j') /\ j = v ++ j'.
Proof.
  intros e f NC EF. induction j as [|x r IH]; intros b L.
  - cbn [at_ inp c_orig cur strchr_push]. rewrite EF. exists [], []. split; reflexivity.
  - cbn [at_ inp c_orig cur]. destruct (strchr f x) as [k|] eqn:E.
    + destruct (IH (x :: b)) as (v & j' & E1 & ->); [cbn [length] in L |- *; lia|].
      exists (x :: v), j'. split; [|reflexivity]. cbn [rev]. rewrite <- app_assoc. cbn [app]. rewrite <- E1.
      destruct (v ++ j') as [|y s]; cbn [strchr_push]; rewrite E; rewrite push_ok by (cbn [length] in L; lia); cbn [bind].
      * cbn [at_ inp c_orig cur strchr_push]. rewrite EF. reflexivity.
      * rewrite NC. reflexivity.
    + exists [], (x :: r). split; [|reflexivity]. destruct r; cbn [strchr_push]; rewrite E; reflexivity.
Qed.

(** * Numeric escapes *)

Lemma index_bound : forall f c k n, index_of f c k = Some n -> k <= n < k + Z.of_nat (length f).
Proof.
  induction f as [|x f IH]; intros c k n E; [discriminate E|]. cbn [index_of length] in *. destruct (x =? c).
  - injection E as <-. lia.
  - apply IH in E. lia.
Qed.
Lemma index_in : forall f c k n, index_of f c k = Some n -> In c f.
Proof.
  induction f as [|x f IH]; intros c k n E; [discriminate E|]. cbn [index_of] in E. destruct (Z.eqb_spec x c); [left; assumption|].
  right. apply (IH c (k + 1) n E).
Qed.
(** the value of the digit *)
Definition dig (k : Z) : Z := if 16 <=? k then k - 6 else k.
Lemma hex_dig : forall c k, 0 <= c <= 255 -> strchr hex_digits c = Some k -> 0 <= dig k <= 16 /\ escape_digit c.
Proof.
  intros c k B E. unfold strchr in E. rewrite Z.mod_small in E by lia. split.
  - apply index_bound in E. change (Z.of_nat (length (hex_digits ++ [0]))) with 23 in E. unfold dig. destruct (Z.leb_spec 16 k); lia.
  - apply index_in in E. cbn [hex_digits app In] in E. unfold escape_digit. repeat destruct E as [<-|E]; try lia; contradiction.
Qed.
Lemma oct_dig : forall c k, 0 <= c <= 255 -> strchr oct_digits c = Some k -> 0 <= dig k <= 8 /\ escape_digit c.
Proof.
  intros c k B E. unfold strchr in E. rewrite Z.mod_small in E by lia. split.
  - apply index_bound in E. change (Z.of_nat (length (oct_digits ++ [0]))) with 9 in E. unfold dig. destruct (Z.leb_spec 16 k); lia.
  - apply index_in in E. cbn [oct_digits app In] in E. unfold escape_digit. repeat destruct E as [<-|E]; try lia; contradiction.
Qed.

(** at most k characters of a numeric escape at the beginning of j *)
Definition esc_run (k : nat) (j : list Z) : Prop :=
  forall v w, j = v ++ w -> Forall escape_digit v -> (length v <= k)%nat.
Lemma esc_run_tail : forall k x j, esc_run (S k) (x :: j) -> escape_digit x -> esc_run k j.
Proof.
  intros k x j R E v w -> F. specialize (R (x :: v) w eq_refl (Forall_cons _ E F)). cbn [length] in R. lia.
Qed.
Lemma esc_run_0 : forall x j, esc_run 0 (x :: j) -> escape_digit x -> False.
Proof. intros x j R E. specialize (R [x] j eq_refl (Forall_cons _ E (Forall_nil _))). cbn [length] in R. lia. Qed.

Lemma radix_total : forall e cv f radix, no_conv e -> 2 <= radix -> strchr f (-1) = None ->
  (forall c k, 0 <= c <= 255 -> strchr f c = Some k -> 0 <= dig k <= radix /\ escape_digit c) ->
  forall j k x, inb j -> esc_run k j -> 0 <= x -> (x + 2) * radix ^ Z.of_nat k <= 2147483648 ->
  exists y j', radix_loop e cv f radix (inp (at_ j)) (c_orig (at_ j)) (cur (at_ j)) x = Ret (y, at_ j') /\ suf j' j.
Proof.
  intros e cv f radix NC R2 EF DG. induction j as [|c r IH]; intros k x BJ RN X0 XB.
  - cbn [at_ inp c_orig cur radix_loop]. rewrite EF. exists x, []. split; [reflexivity|apply suf_refl].
  - cbn [at_ inp c_orig cur]. pose proof (Forall_inv BJ) as Bc. cbv beta in Bc. destruct (strchr f c) as [n|] eqn:E.
    + destruct (DG c n Bc E) as [DB ED]. destruct k as [|k]; [exfalso; apply (esc_run_0 _ _ RN ED)|].
      rewrite Nat2Z.inj_succ, Z.pow_succ_r in XB by lia.
      pose proof (Z.pow_pos_nonneg radix (Z.of_nat k) ltac:(lia) ltac:(lia)) as PP.
      assert (X1 : 0 <= x * radix + dig n) by nia.
      assert (X2 : (x * radix + dig n + 2) * radix ^ Z.of_nat k <= 2147483648) by nia.
      assert (X3 : x * radix + dig n <= 2147483646) by nia.
      destruct (IH k (x * radix + dig n) (Forall_inv_tail BJ) (esc_run_tail _ _ _ RN ED) X1 X2) as (y & j' & E1 & S1).
      exists y, j'. split; [|apply (suf_trans _ _ _ S1 (suf_one _ _))]. rewrite <- E1.
      assert (OV : (INT_MIN <=? x * radix + dig n) && (x * radix + dig n <=? INT_MAX) = true).
      { unfold INT_MIN, INT_MAX. change (- 2 ^ 31) with (-2147483648). change (2 ^ 31 - 1) with 2147483647.
        destruct (Z.leb_spec (-2147483648) (x * radix + dig n)); [|lia].
        destruct (Z.leb_spec (x * radix + dig n) 2147483647); [reflexivity|lia]. }
      destruct r as [|y0 r]; cbn [radix_loop]; rewrite E; fold (dig n); rewrite OV.
      * cbn [at_ inp c_orig cur radix_loop]. rewrite EF. reflexivity.
      * unfold conv_if. destruct cv; [rewrite NC|]; reflexivity.
    + exists x, (c :: r). split; [|apply suf_refl]. destruct r; cbn [radix_loop]; rewrite E; reflexivity.
Qed.
Lemma pump_total : forall e cv c0 j, no_conv e ->
  exists j', pump e cv c0 (inp (at_ j)) (c_orig (at_ j)) (cur (at_ j)) = at_ j' /\ suf j' j.
Proof.
  intros e cv c0 j NC. induction j as [|x r IH].
  - exists []. split; [|apply suf_refl]. cbn [at_ inp c_orig cur pump]. destruct ((-1 =? 92) || (-1 =? c0) || (-1 =? -1) || (-1 =? 10)); reflexivity.
  - cbn [at_ inp c_orig cur]. destruct ((x =? 92) || (x =? c0) || (x =? -1) || (x =? 10)) eqn:E.
    + exists (x :: r). split; [|apply suf_refl]. destruct r; cbn [pump]; rewrite E; reflexivity.
    + destruct IH as (j' & E1 & S1). exists j'. split; [|apply (suf_trans _ _ _ S1 (suf_one _ _))]. rewrite <- E1.
      destruct r as [|y r]; cbn [pump]; rewrite E.
      * cbn [at_ inp c_orig cur pump]. destruct ((-1 =? 92) || (-1 =? c0) || (-1 =? -1) || (-1 =? 10)); reflexivity.
      * unfold conv_if. destruct cv; [rewrite NC|]; reflexivity.
Qed.

(** * Quoted items *)

Definition len (i : list Z) : Z := Z.of_nat (length i).
Lemma suf_len' : forall j i, suf j i -> len j <= len i.
Proof. intros j i S1. apply suf_len in S1. unfold len. lia. Qed.
Lemma len_cons : forall x j, len (x :: j) = len j + 1.
Proof. intros x j. unfold len. cbn [length]. lia. Qed.
Lemma len_nonneg : forall j, 0 <= len j. Proof. intros j. unfold len. lia. Qed.

Lemma oct_eof : strchr oct_digits (-1) = None. Proof. reflexivity. Qed.
Lemma hex_eof : strchr hex_digits (-1) = None. Proof. reflexivity. Qed.
Lemma bin_eof : strchr bin_digits (-1) = None. Proof. reflexivity. Qed.

Definition qpost (c0 : Z) (i : list Z) (err : bool) (r : qres) : Prop :=
  let '(q, err', s) := r in
  suf (inp s) i /\
  (len (inp s) < len i \/ q = QEof \/ q = QNewline \/ (q = QTab /\ err = false)) /\
  match q with
  | QChar _ => err' = err
  | QClose => err' = err /\ i = c0 :: inp s
  | QSkip => err' = err /\ exists j, s = at_ j /\ i = 92 :: j
  | _ => err' = true
  end.

Lemma err_unget_at : forall err j, nonneg j ->
  inp (err_unget err (at_ j)) = if err then inp (at_ j) else j.
Proof. intros [|] j N; [reflexivity|]. cbn [err_unget inp]. apply unget_at. exact N. Qed.

Lemma quoted_char_total : forall e cv c0 ne err i, no_conv e -> inb i -> short_escapes i -> 0 <= c0 ->
  exists r, Lexer_Quoted_Char e cv c0 ne err i = Ret r /\ qpost c0 i err r.
Proof.
  intros e cv c0 ne err i NC B SE C0P. unfold Lexer_Quoted_Char. rewrite (read_at e cv i NC).
  assert (NN : nonneg i) by (apply inb_nonneg; exact B).
  destruct i as [|x i1].
  { cbn [at_ cur]. destruct (Z.eqb_spec (-1) c0); [lia|]. change (-1 =? -1) with true. cbv iota.
    eexists. split; [reflexivity|]. unfold qpost. change (Scan [] (-1) (-1)) with (at_ []). rewrite err_unget_at by constructor.
    split; [destruct err; apply suf_refl|]. split; [auto|reflexivity]. }
  cbn [at_ cur inp].
  assert (S1 : suf i1 (x :: i1)) by apply suf_one. assert (L1 : len i1 < len (x :: i1)) by (rewrite len_cons; lia).
  destruct (Z.eqb_spec x c0) as [Ex|Nx].
  { destruct (Peek_Char e cv i1 =? c0) eqn:PK.
    - rewrite (read_at e cv i1 NC). eexists. split; [reflexivity|]. unfold qpost. split; [apply (suf_trans _ _ _ (inp_at i1) S1)|].
      split; [left; pose proof (suf_len' _ _ (inp_at i1)); lia|reflexivity].
    - eexists. split; [reflexivity|]. unfold qpost. cbn [inp]. subst x. auto. }
  pose proof (Forall_inv B) as Bx. cbv beta in Bx.
  destruct (Z.eqb_spec x (-1)); [lia|]. change (Scan i1 x x) with (at_ (x :: i1)).
  destruct (Z.eqb_spec x 10).
  { eexists. split; [reflexivity|]. unfold qpost. rewrite err_unget_at by exact NN.
    split; [destruct err; [exact S1|apply suf_refl]|]. split; [auto|reflexivity]. }
  destruct (Z.eqb_spec x 9).
  { eexists. split; [reflexivity|]. unfold qpost. rewrite err_unget_at by exact NN.
    split; [destruct err; [exact S1|apply suf_refl]|]. split; [|reflexivity]. destruct err; [left; exact L1|auto]. }
  destruct (negb (x =? 92) || ne) eqn:E92.
  { eexists. split; [reflexivity|]. unfold qpost. cbn [at_ inp]. auto. }
  apply orb_false_iff in E92. destruct E92 as [E92 _]. apply negb_false_iff, Z.eqb_eq in E92. subst x.
  rewrite (read_at e cv i1 NC). set (s1 := at_ i1).
  assert (SI : suf (inp s1) (92 :: i1)) by (apply (suf_trans _ _ _ (inp_at i1) S1)).
  assert (LI : len (inp s1) < len (92 :: i1)) by (pose proof (suf_len' _ _ (inp_at i1)); fold s1 in H; lia).
  destruct (cur s1 =? 10).
  { eexists. split; [reflexivity|]. unfold qpost. split; [exact SI|]. split; [auto|]. split; [reflexivity|]. exists i1. auto. }
  destruct (strchr [92; 39; 34; 96] (cur s1)).
  { eexists. split; [reflexivity|]. unfold qpost. auto. }
  destruct (strchr escape_symbol (cur s1)).
  { eexists. split; [reflexivity|]. unfold qpost. auto. }
  destruct (negb (strict_iso e) && (cur s1 =? 115)).
  { eexists. split; [reflexivity|]. unfold qpost. auto. }
  destruct (negb (strict_iso e) && (cur s1 =? 101)).
  { eexists. split; [reflexivity|]. unfold qpost. auto. }
  destruct ((cur s1 =? 120) || ((48 <=? cur s1) && (cur s1 <=? 55))) eqn:EX.
  2:{ eexists. split; [reflexivity|]. unfold qpost. auto. }
  destruct i1 as [|c i2]; [discriminate EX|]. unfold s1 in *. cbn [at_ cur inp] in *. rewrite (read_at e cv i2 NC).
  pose proof (Forall_inv_tail B) as B1. pose proof (Forall_inv_tail B1) as B2.
  assert (EC : escape_digit c).
  { unfold escape_digit. apply orb_true_iff in EX. destruct EX as [Q|Q]; [apply Z.eqb_eq in Q; lia|].
    apply andb_true_iff in Q. destruct Q as [Q1 Q2]. apply Z.leb_le in Q1. apply Z.leb_le in Q2. lia. }
  assert (RN : esc_run 7 i2).
  { intros v w -> F. specialize (SE [] (c :: v) w eq_refl (Forall_cons _ EC F)). cbn [length] in SE. lia. }
  assert (K : exists y j', radix_loop e cv (if c =? 120 then hex_digits else oct_digits) (if c =? 120 then 16 else 8)
      (inp (at_ i2)) (c_orig (at_ i2)) (cur (at_ i2)) (if c =? 120 then 0 else c - 48) = Ret (y, at_ j') /\ suf j' i2).
  { destruct (Z.eqb_spec c 120) as [->|N120].
    - apply (radix_total e cv hex_digits 16 NC) with (k := 7%nat); try assumption; first [exact hex_eof|exact hex_dig|cbn; lia].
    - cbn [orb] in EX. destruct (Z.eqb_spec c 120); [congruence|]. cbn [orb] in EX. apply andb_true_iff in EX.
      destruct EX as [Q1 Q2]. apply Z.leb_le in Q1. apply Z.leb_le in Q2.
      apply (radix_total e cv oct_digits 8 NC) with (k := 7%nat); try assumption; first [exact oct_eof|exact oct_dig|cbn; lia]. }
  destruct K as (y & j' & E1 & SJ). rewrite E1. cbn [bind].
  assert (SJ' : suf j' (92 :: c :: i2)) by (apply (suf_trans _ _ _ SJ); exists [92; c]; reflexivity).
  assert (LJ : len j' < len (92 :: c :: i2)) by (apply suf_len' in SJ; rewrite !len_cons; lia).
  destruct (Is_Valid_Code y && (cur (at_ j') =? 92)).
  { eexists. split; [reflexivity|]. unfold qpost. split; [apply (suf_trans _ _ _ (inp_at j') SJ')|]. split; [|reflexivity].
    left. pose proof (suf_len' _ _ (inp_at j')). lia. }
  destruct (pump_total e cv c0 j' NC) as (j2 & E2 & S2). rewrite E2.
  assert (SJ2 : suf j2 (92 :: c :: i2)) by (apply (suf_trans _ _ _ S2 SJ')).
  assert (LJ2 : len j2 < len (92 :: c :: i2)) by (apply suf_len' in S2; lia).
  eexists. split; [reflexivity|]. unfold qpost. destruct (cur (at_ j2) =? c0); cbn [inp].
  - rewrite unget_at by (apply (suf_nonneg _ _ SJ2 NN)). auto.
  - split; [apply (suf_trans _ _ _ (inp_at j2) SJ2)|]. split; [|reflexivity]. left. pose proof (suf_len' _ _ (inp_at j2)). lia.
Qed.

(** what a call of the scanner gives: [k] the tokens it may give *)
Definition lpost (i : list Z) (k : token -> Prop) (r : lexed) : Prop :=
  let '(t, err, j) := r in err = false -> suf j i /\ k t.

Lemma quoted_loop_total : forall e cv c0 ne mk, no_conv e -> 0 <= c0 -> forall fuel (err : bool) (found : bool) i b,
  inb i -> short_escapes i -> len i + len b < 1048576 ->
  (length i + (if err then 1 else 2) <= fuel)%nat ->
  exists r, quoted_loop fuel e cv c0 ne mk err found i b = Ret r /\ lpost i (fun t => exists n, t = mk n) r.
Proof.
  intros e cv c0 ne mk NC C0P. induction fuel as [|fuel IH]; intros err found i b B SE LB LF; [destruct err; lia|].
  cbn [quoted_loop]. destruct (quoted_char_total e cv c0 ne err i NC B SE C0P) as (((q & err') & s) & E & PO). rewrite E. cbn [bind].
  destruct PO as (SI & LI & Q).
  assert (BS : inb (inp s)) by (destruct SI as (u & ->); apply Forall_app in B; apply B).
  assert (SES : short_escapes (inp s)) by (apply (suf_escapes _ _ SI SE)).
  assert (LES : len (inp s) <= len i) by (apply suf_len'; exact SI).
  assert (CL : close b = Ret (rev b)) by (apply close_ok; pose proof (len_nonneg i); unfold len in *; lia).
  assert (ST : forall j k r, suf j i -> lpost j k r -> lpost i k r).
  { intros j k ((t & er) & j2) S2 P2 E2. destruct (P2 E2) as [S3 K3]. split; [apply (suf_trans _ _ _ S3 S2)|exact K3]. }
  destruct q as [c| | | | | |].
  - subst err'. assert (LL : len (inp s) < len i) by (destruct LI as [LI|[LI|[LI|[LI _]]]]; [exact LI|discriminate LI..]).
    destruct found.
    + destruct (IH err true (inp s) b BS SES) as (r & E1 & P1); [lia|unfold len in LL; destruct err; lia|].
      exists r. split; [exact E1|]. apply (ST _ _ _ SI P1).
    + rewrite push_ok by (pose proof (len_nonneg i); unfold len in *; lia). cbn [bind].
      destruct (IH err false (inp s) (c :: b) BS SES) as (r & E1 & P1); [rewrite len_cons; lia|unfold len in LL; destruct err; lia|].
      exists r. split; [exact E1|]. apply (ST _ _ _ SI P1).
  - rewrite CL. cbn [bind]. eexists. split; [reflexivity|]. intros _. split; [exact SI|eexists; reflexivity].
  - destruct Q as [-> (jq & _)]. assert (LL : len (inp s) < len i) by (destruct LI as [LI|[LI|[LI|[LI _]]]]; [exact LI|discriminate LI..]).
    destruct (IH err found (inp s) b BS SES) as (r & E1 & P1); [lia|unfold len in LL; destruct err; lia|].
    exists r. split; [exact E1|]. apply (ST _ _ _ SI P1).
  - rewrite CL. cbn [bind]. eexists. split; [reflexivity|]. intros Q1. congruence.
  - rewrite CL. cbn [bind]. eexists. split; [reflexivity|]. intros Q1. congruence.
  - subst err'. destruct (IH true true (inp s) b BS SES) as (r & E1 & P1).
    + lia.
    + destruct LI as [LI|[LI|[LI|[_ LI]]]]; try discriminate LI; [unfold len in LI; destruct err; lia|]. subst err.
      unfold len in LES. lia.
    + exists r. split; [exact E1|]. apply (ST _ _ _ SI P1).
  - subst err'. assert (LL : len (inp s) < len i) by (destruct LI as [LI|[LI|[LI|[LI _]]]]; [exact LI|discriminate LI..]).
    destruct (IH true true (inp s) b BS SES) as (r & E1 & P1); [lia|unfold len in LL; destruct err; lia|].
    exists r. split; [exact E1|]. apply (ST _ _ _ SI P1).
Qed.

(** * Numbers *)

Lemma nn_app : forall (u v : list Z), nonneg (u ++ v) -> nonneg v.
Proof. intros u v N. apply Forall_app in N. apply N. Qed.
Lemma len_app : forall u v, len (u ++ v) = len u + len v.
Proof. intros u v. unfold len. rewrite app_length. lia. Qed.
Lemma len_rev : forall u, len (rev u) = len u.
Proof. intros u. unfold len. rewrite rev_length. reflexivity. Qed.
Lemma push_len : forall b c, len b < 1048576 -> push b c = Ret (c :: b).
Proof. intros b c L. apply push_ok. exact L. Qed.
Lemma close_len : forall b, len b < 1048576 -> close b = Ret (rev b).
Proof. intros b L. apply close_ok. exact L. Qed.

Lemma float_total : forall e k b, no_conv e -> nonneg k -> len b + len k + 1 < 1048576 ->
  exists n j, lexer_float e k b = Ret (TokFloat n, false, j) /\ suf j k.
Proof.
  intros e k b NC NN L. unfold lexer_float. pose proof (len_nonneg k) as LK. rewrite push_len by lia. cbn [bind].
  rewrite read_at by exact NC.
  destruct (while_push_total e is_DI NC eq_refl k (46 :: b)) as (v & k2 & E & -> & _).
  { unfold len in L. cbn [length]. lia. }
  rewrite E. cbn [bind]. rewrite len_app in L. pose proof (nn_app _ _ NN) as NN2. pose proof (len_nonneg k2). pose proof (len_nonneg v).
  assert (LB2 : len (rev v ++ 46 :: b) + len k2 < 1048576) by (rewrite len_app, len_rev, len_cons; lia).
  set (b2 := rev v ++ 46 :: b) in *. 
  assert (S2 : suf k2 (v ++ k2)) by (exists v; reflexivity).
  destruct ((cur (at_ k2) =? 101) || (cur (at_ k2) =? 69)) eqn:E10.
  2:{ rewrite close_len by lia. cbn [bind]. rewrite unget_at by exact NN2. eexists _, _. split; [reflexivity|exact S2]. }
  destruct k2 as [|x k3]; [discriminate E10|]. cbn [at_ inp c_orig]. rewrite read_at by exact NC. rewrite len_cons in *.
  pose proof (Forall_inv NN2) as Bx. cbv beta in Bx. pose proof (Forall_inv_tail NN2) as NN3. fold (nonneg k3) in NN3.
  destruct (negb _) eqn:ED.
  { rewrite close_len by lia. cbn [bind]. rewrite unget_at by exact NN3. unfold unget. destruct (Z.eqb_spec x (-1)); [lia|].
    eexists _, _. split; [reflexivity|exact S2]. }
  destruct k3 as [|y k4].
  { exfalso. cbn [at_ cur inp] in ED. change (ty e (-1)) with C0 in ED. discriminate ED. }
  pose proof (len_nonneg k4). rewrite len_cons in *.
  rewrite push_len by lia. cbn [bind]. rewrite push_len by (rewrite len_cons; lia). cbn [bind at_ inp cur]. rewrite read_at by exact NC.
  destruct (while_push_total e is_DI NC eq_refl k4 (y :: 101 :: b2)) as (v2 & k5 & E5 & Q5 & _).
  { unfold len in *. cbn [length]. lia. }
  subst k4. rewrite E5. cbn [bind]. rewrite len_app in *. pose proof (len_nonneg k5).
  rewrite close_len by (rewrite len_app, len_rev, !len_cons; lia). cbn [bind].
  rewrite unget_at by (apply (nn_app v2); apply (Forall_inv_tail NN3)).
  eexists _, _. split; [reflexivity|]. exists (v ++ x :: y :: v2). rewrite <- app_assoc. reflexivity.
Qed.

Lemma number_total : forall e c i, no_conv e -> 0 <= c -> inb i -> short_escapes i -> len i + 1 < 1048576 ->
  exists r, Lexer_Number e c i = Ret r /\ lpost i (fun t => (exists n, t = TokInt n) \/ (exists n, t = TokFloat n) \/ t = TokStop) r.
Proof.
  intros e c i NC C0P B SE L. unfold Lexer_Number. assert (NN : nonneg i) by (apply inb_nonneg; exact B).
  destruct (push_while_total e is_DI NC i c []) as (v & j & E & Ei & _ & _).
  { unfold len in L. cbn [length]. lia. }
  rewrite E. cbn [bind]. assert (SJ : suf j i) by (exists v; exact Ei).
  assert (NJ : nonneg j) by (apply (suf_nonneg _ _ SJ NN)). assert (BJ : inb j) by (subst i; apply Forall_app in B; apply B).
  assert (LI : len i = len v + len j) by (rewrite Ei; apply len_app). pose proof (len_nonneg j). pose proof (len_nonneg v).
  assert (LB : len (rev v ++ [c]) = len v + 1) by (rewrite len_app, len_rev; reflexivity).
  destruct ((cur (at_ j) =? 46) && isdigit (Peek_Char e true (inp (at_ j)))) eqn:EF.
  { destruct j as [|x k]; [discriminate EF|]. cbn [at_ inp]. rewrite len_cons in *.
    destruct (float_total e k (rev v ++ [c]) NC (Forall_inv_tail NJ) ltac:(lia)) as (n & j2 & E2 & S2). rewrite E2.
    eexists. split; [reflexivity|]. intros _. split; [|eauto]. apply (suf_trans _ _ _ S2). apply (suf_cons x). exact SJ. }
  rewrite close_len by lia. cbn [bind]. set (x := strtol 10 (rev (rev v ++ [c]))). rewrite unget_at by exact NJ.
  destruct (_ || _ || _) eqn:ES.
  { eexists. split; [reflexivity|]. intros _. split; [exact SJ|eauto]. }
  apply orb_false_iff in ES. destruct ES as [_ ES].
  destruct (strchr [39; 98; 111; 120] (cur (at_ j))) as [sk|] eqn:EC; [|discriminate ES].
  destruct j as [|y k]; [discriminate EC|]. cbn [at_ inp cur] in *.
  pose proof (Forall_inv NJ) as By. cbv beta in By. pose proof (Forall_inv_tail NJ) as NK. pose proof (Forall_inv_tail BJ) as BK.
  assert (SK : suf k i) by (apply (suf_cons y); exact SJ). rewrite len_cons in *. pose proof (len_nonneg k).
  destruct (Z.eqb_spec y 39) as [->|N39].
  { destruct (quoted_char_total e true 39 false false k NC BK (suf_escapes _ _ SK SE) ltac:(lia)) as (((q & err') & s) & E2 & PO).
    rewrite E2. cbn [bind]. destruct PO as (SI & LQ & Q). assert (SS : suf (inp s) i) by (apply (suf_trans _ _ _ SI SK)).
    destruct q as [ch| | | | | |].
    - eexists. split; [reflexivity|]. intros _. split; [exact SS|eauto].
    - destruct Q as [-> Q]. destruct (strict_iso e); [destruct (void_op e)|].
      + eexists. split; [reflexivity|]. intros _. split; [|eauto]. exists v. rewrite Ei, Q. reflexivity.
      + eexists. split; [reflexivity|]. intros Q1. discriminate Q1.
      + eexists. split; [reflexivity|]. intros _. split; [exact SS|eauto].
    - destruct Q as [-> (j2 & -> & Q)]. eexists. split; [reflexivity|]. intros _. split; [|eauto].
      rewrite unget_at by (rewrite Q in NK; apply (Forall_inv_tail NK)). exists v. rewrite Ei, Q. reflexivity.
    - eexists. split; [reflexivity|]. intros Q1. discriminate Q1.
    - eexists. split; [reflexivity|]. intros Q1. discriminate Q1.
    - eexists. split; [reflexivity|]. intros Q1. discriminate Q1.
    - eexists. split; [reflexivity|]. intros Q1. discriminate Q1. }
  rewrite read_at by exact NC.
  destruct (strchr_push_total e (if y =? 98 then bin_digits else if y =? 111 then oct_digits else hex_digits) NC
     ltac:(destruct (y =? 98); [exact bin_eof|destruct (y =? 111); [exact oct_eof|exact hex_eof]]) k [])
    as (v2 & j2 & E2 & Q2); [unfold len in *; cbn [length]; lia|].
  rewrite E2. cbn [bind]. rewrite app_nil_r. pose proof (len_nonneg j2). assert (LK : len k = len v2 + len j2) by (rewrite Q2; apply len_app).
  rewrite close_len by (rewrite len_rev; lia). cbn [bind]. rewrite rev_involutive.
  assert (NJ2 : nonneg j2) by (rewrite Q2 in NK; apply (nn_app v2); exact NK). rewrite unget_at by exact NJ2.
  destruct v2 as [|z v2].
  - eexists. split; [reflexivity|]. intros _. split; [|eauto]. cbn [app] in Q2. subst j2. exact SJ.
  - eexists. split; [reflexivity|]. intros _. split; [|eauto]. apply (suf_trans _ k); [exists (z :: v2); exact Q2|exact SK].
Qed.

(** * Tokens *)

Lemma skip_total : forall e, no_conv e -> forall i before,
  exists b j, skip_layout e i before = (b, at_ j) /\ suf j i /\ next_not e is_LA j.
Proof.
  intros e NC. induction i as [|x i IH]; intros before; cbn [skip_layout].
  - exists before, []. split; [reflexivity|]. split; [apply suf_refl|exact I].
  - rewrite NC. destruct (is_LA (ty e x)) eqn:E.
    + destruct (IH true) as (b & j & E1 & S1 & N1). exists b, j. split; [exact E1|]. split; [apply (suf_trans _ _ _ S1 (suf_one _ _))|exact N1].
    + exists before, (x :: i). split; [reflexivity|]. split; [apply suf_refl|exact E].
Qed.
Lemma skip_line_suf : forall e i, suf (skip_line e i) i.
Proof.
  intros e. induction i as [|x i IH]; cbn [skip_line]; [apply suf_refl|]. destruct (conv e x =? 10); [apply suf_one|].
  apply (suf_trans _ _ _ IH (suf_one _ _)).
Qed.
Lemma skip_comment_suf : forall e i c j, skip_comment e i c = Some j -> suf j i.
Proof.
  intros e. induction i as [|x i IH]; intros c j E; cbn [skip_comment] in E; [discriminate E|]. destruct (_ && _).
  - injection E as <-. apply suf_one.
  - apply IH in E. apply (suf_trans _ _ _ E (suf_one _ _)).
Qed.
Lemma type_not_C0 : forall e c, char_type e c <> C0.
Proof.
  intros e c. unfold char_type. destruct (Z.ltb_spec c 128).
  - assert (K : forallb (fun t => match t with C0 => false | _ => true end) char_type_table = true) by reflexivity.
    rewrite forallb_forall in K. destruct (nth_in_or_default (Z.to_nat c) char_type_table LA) as [I1|E1].
    + intros Q. apply K in I1. rewrite Q in I1. discriminate I1.
    + rewrite E1. discriminate.
  - destruct (lower e c); [discriminate|]. destruct (upper e c); discriminate.
Qed.
Lemma pc_chars : forall e c, 0 <= c <= 255 -> char_type e c = PC -> In c [40; 41; 91; 93; 123; 124; 125].
Proof.
  intros e c B T. destruct (Z.ltb_spec c 128).
  - pose proof (ascii_type e (fun c t => match t with PC => existsb (Z.eqb c) [40; 41; 91; 93; 123; 124; 125] | _ => true end)
      ltac:(vm_compute; reflexivity) c ltac:(lia)) as K. cbv beta in K. rewrite T in K. apply existsb_exists in K.
    destruct K as (x & Hx & E). apply Z.eqb_eq in E. subst x. exact Hx.
  - destruct (char_type_ext e c H) as [Q|[Q|Q]]; rewrite Q in T; discriminate T.
Qed.

(** the tokens *)
Definition tok_ok (t : token) : Prop :=
  match t with
  | TokVar n => Z.of_nat (length n) < 1024
  | TokPunct c => In c [40; 41; 91; 93; 123; 124; 125; 44]
  | _ => True
  end.
Definition tpost (i : list Z) (r : lexed) : Prop :=
  let '(t, err, j) := r in err = false -> suf j i /\ (t = TokEof \/ (length j < length i)%nat) /\ tok_ok t.

Lemma tpost_suf : forall j i r, suf j i -> tpost j r -> tpost i r.
Proof.
  intros j i ((t & err) & k) S1 P E. destruct (P E) as (S2 & Q & K). split; [apply (suf_trans _ _ _ S2 S1)|].
  split; [|exact K]. destruct Q as [Q|Q]; [left; exact Q|right]. apply suf_len in S1. lia.
Qed.

Lemma lexer_total : forall e cp, no_conv e -> forall fuel before i, inb i -> short_escapes i -> short_names e i ->
  len i < 1048576 -> (length i < fuel)%nat ->
  exists r, lexer_token fuel e cp before i = Ret r /\ tpost i r.
Proof.
  intros e cp NC. induction fuel as [|fuel IH]; intros before i B SE SN L LF; [lia|]. cbn [lexer_token].
  destruct (skip_total e NC i before) as (b & j & E & SJ & NL). rewrite E.
  assert (BJ : inb j) by (destruct SJ as (u & ->); apply Forall_app in B; apply B).
  destruct j as [|c j1].
  { cbn [at_ cur inp]. eexists. split; [reflexivity|]. intros _. split; [exact SJ|]. split; [left; reflexivity|exact I]. }
  cbn [at_ cur inp c_orig next_not] in *. pose proof (Forall_inv BJ) as Bc. cbv beta in Bc. pose proof (Forall_inv_tail BJ) as B1. fold (inb j1) in B1.
  destruct (Z.eqb_spec c (-1)); [lia|]. rewrite ty_char in * by lia.
  assert (S1 : suf j1 i) by (apply (suf_cons c); exact SJ). pose proof (suf_len _ _ SJ) as LJ. cbn [length] in LJ.
  pose proof (suf_len' _ _ SJ) as LJ'. rewrite len_cons in LJ'. pose proof (len_nonneg j1).
  assert (N1 : nonneg j1) by (apply inb_nonneg; exact B1).
  pose proof (suf_escapes _ _ S1 SE) as SE1. pose proof (suf_names e _ _ S1 SN) as SN1.
  assert (ID : alnum (char_type e c) = true -> exists v j2, push_while e alnum j1 c [] = Ret (rev v ++ [c], at_ j2) /\ j1 = v ++ j2 /\
     close (rev v ++ [c]) = Ret (c :: v) /\ (length (c :: v) < 1024)%nat /\ nonneg j2).
  { intros TA. destruct (push_while_total e alnum NC j1 c []) as (v & j2 & E1 & Q & F & _).
    { unfold len in LJ', L. cbn [length]. lia. }
    exists v, j2. split; [exact E1|]. split; [exact Q|]. split.
    { rewrite close_len; [rewrite rev_app_distr, rev_involutive; reflexivity|].
      rewrite len_app, len_rev. rewrite Q in LJ'. rewrite len_app in LJ'. pose proof (len_nonneg j2). unfold len at 2. cbn [length]. lia. }
    split; [|subst j1; apply (nn_app v); exact N1].
    destruct SJ as (u & ->). apply (SN u (c :: v) j2); [rewrite Q; reflexivity|]. constructor; [exact TA|].
    rewrite Forall_forall in F |- *. intros x Hx. specialize (F x Hx). rewrite ty_char in F; [exact F|].
    subst j1. apply Forall_app in N1. destruct N1 as [N1 _]. rewrite Forall_forall in N1. apply (N1 x Hx). }
  assert (QU : forall mk c1 ne cv, 0 <= c1 -> (forall n, tok_ok (mk n)) -> exists r, quoted_loop (S (S (length j1))) e cv c1 ne mk false false j1 [] = Ret r /\ tpost i r).
  { intros mk c1 ne cv C1 MK. destruct (quoted_loop_total e cv c1 ne mk NC C1 (S (S (length j1))) false false j1 [] B1 SE1) as (((t & er) & j2) & E1 & P1).
    - unfold len at 2. cbn [length]. lia.
    - lia.
    - eexists. split; [exact E1|]. intros Q. destruct (P1 Q) as (S2 & n0 & ->). split; [apply (suf_trans _ _ _ S2 S1)|].
      split; [right; apply suf_len in S2; lia|apply MK]. }
  destruct (char_type e c) eqn:T; try discriminate NL.
  - (* SC *) destruct ((c =? 44) && cp) eqn:E44.
    + apply andb_true_iff in E44. destruct E44 as [E44 _]. apply Z.eqb_eq in E44. subst c.
      eexists. split; [reflexivity|]. intros _. split; [exact S1|]. split; [right; lia|]. cbn [tok_ok In]. lia.
    + eexists. split; [reflexivity|]. intros _. split; [exact S1|]. split; [right; lia|exact I].
  - unfold Lexer_Quoted. rewrite ty_char by lia. rewrite T. apply QU; [lia|]. intros n0. exact I.
  - unfold Lexer_Quoted. rewrite ty_char by lia. rewrite T. apply QU; [lia|]. intros n0. exact I.
  - unfold Lexer_Quoted. rewrite ty_char by lia. rewrite T. apply QU; [lia|]. intros n0. exact I.
  - (* GR *) rewrite read_at by exact NC.
    destruct ((c =? 46) && ((cur (at_ j1) =? -1) || layout_or_comment (ty e (cur (at_ j1))))).
    { rewrite unget_at by exact N1. eexists. split; [reflexivity|]. intros _. split; [exact S1|]. split; [right; lia|exact I]. }
    destruct ((c =? 47) && (cur (at_ j1) =? 42)).
    { destruct j1 as [|y j2]; cbn [at_ inp].
      - eexists. split; [reflexivity|]. intros Q. discriminate Q.
      - destruct j2 as [|x r].
        { eexists. split; [reflexivity|]. intros Q. discriminate Q. }
        destruct (skip_comment e r (conv e x)) as [k|] eqn:EK.
        2:{ eexists. split; [reflexivity|]. intros Q. discriminate Q. }
        apply skip_comment_suf in EK.
        assert (SK : suf k i) by (apply (suf_trans _ _ _ EK); apply (suf_cons x); apply (suf_cons y); exact S1).
        destruct (IH true k) as (r2 & E2 & P2).
        + destruct SK as (u & ->). apply Forall_app in B. apply B.
        + apply (suf_escapes _ _ SK SE).
        + apply (suf_names _ _ _ SK SN).
        + apply suf_len' in SK. lia.
        + apply suf_len in EK. cbn [length] in *. lia.
        + exists r2. split; [exact E2|]. apply (tpost_suf _ _ _ SK P2). }
    rewrite push_len by (unfold len; cbn [length]; lia). cbn [bind].
    destruct (while_push_total e is_GR NC eq_refl j1 [c]) as (v & j2 & E2 & Q2 & _).
    { unfold len in *. cbn [length]. lia. }
    rewrite E2. cbn [bind]. rewrite close_len.
    2:{ rewrite len_app, len_rev. rewrite Q2 in LJ'. rewrite len_app in LJ'. pose proof (len_nonneg j2). unfold len at 2. cbn [length]. lia. }
    cbn [bind]. rewrite unget_at by (subst j1; apply (nn_app v); exact N1).
    eexists. split; [reflexivity|]. intros _. split; [apply (suf_trans _ j1); [exists v; exact Q2|exact S1]|]. split; [right|exact I].
    rewrite Q2 in LJ. rewrite app_length in LJ. lia.
  - (* PC *) assert (PCH := pc_chars e c Bc T). destruct ((c =? 40) && negb b).
    + eexists. split; [reflexivity|]. intros _. split; [exact S1|]. split; [right; lia|exact I].
    + eexists. split; [reflexivity|]. intros _. split; [exact S1|]. split; [right; lia|]. cbn [tok_ok In] in *. lia.
  - (* DI *) destruct (number_total e c j1 NC ltac:(lia) B1 SE1 ltac:(lia)) as (((t & er) & j2) & E1 & P1).
    eexists. split; [exact E1|]. intros Q. destruct (P1 Q) as (S2 & K). split; [apply (suf_trans _ _ _ S2 S1)|].
    split; [right; apply suf_len in S2; lia|]. destruct K as [(n0 & ->)|[(n0 & ->)| ->]]; exact I.
  - (* UL *) destruct (ID eq_refl) as (v & j2 & E1 & Q1 & E2 & LN & N2). rewrite E1. cbn [bind]. rewrite E2. cbn [bind].
    rewrite unget_at by exact N2. eexists. split; [reflexivity|]. intros _. split; [apply (suf_trans _ j1); [exists v; exact Q1|exact S1]|].
    split; [right; rewrite Q1, app_length in LJ; lia|]. cbn [tok_ok]. lia.
  - (* CL *) destruct (ID eq_refl) as (v & j2 & E1 & Q1 & E2 & LN & N2). rewrite E1. cbn [bind]. rewrite E2. cbn [bind].
    rewrite unget_at by exact N2. eexists. split; [reflexivity|]. intros _. split; [apply (suf_trans _ j1); [exists v; exact Q1|exact S1]|].
    split; [right; rewrite Q1, app_length in LJ; lia|]. cbn [tok_ok]. lia.
  - (* SL *) destruct (ID eq_refl) as (v & j2 & E1 & Q1 & E2 & LN & N2). rewrite E1. cbn [bind]. rewrite E2. cbn [bind].
    rewrite unget_at by exact N2. eexists. split; [reflexivity|]. intros _. split; [apply (suf_trans _ j1); [exists v; exact Q1|exact S1]|].
    split; [right; rewrite Q1, app_length in LJ; lia|exact I].
  - (* CM *) pose proof (skip_line_suf e j1) as SK0. assert (SK : suf (skip_line e j1) i) by (apply (suf_trans _ _ _ SK0 S1)).
    destruct (IH true (skip_line e j1)) as (r2 & E2 & P2).
    + destruct SK as (u & E3). rewrite E3 in B. apply Forall_app in B. apply B.
    + apply (suf_escapes _ _ SK SE).
    + apply (suf_names _ _ _ SK SN).
    + apply suf_len' in SK. lia.
    + apply suf_len in SK0. lia.
    + exists r2. split; [exact E2|]. apply (tpost_suf _ _ _ SK P2).
  - eexists. split; [reflexivity|]. intros _. split; [exact S1|]. split; [right; lia|exact I].
  - exfalso. exact (type_not_C0 e c T).
Qed.

(** * The parser *)

Definition text_ok (e : env) (i : list Z) : Prop :=
  inb i /\ short_escapes i /\ short_names e i /\ len i < 1048576.
Definition sok (P : penv) (s : pst) : Prop :=
  text_ok (lx P) (p_inp s) /\ match p_unget s with Some t => tok_ok t | None => True end.
(** how much remains *)
Definition m (s : pst) : nat :=
  length (p_inp s) + match p_unget s with None | Some TokEof => 0 | Some _ => 1 end.

Lemma text_suf : forall e j i, suf j i -> text_ok e i -> text_ok e j.
Proof.
  intros e j i S1 (B & SE & SN & L). split; [destruct S1 as (u & ->); apply Forall_app in B; apply B|].
  split; [apply (suf_escapes _ _ S1 SE)|]. split; [apply (suf_names _ _ _ S1 SN)|]. apply suf_len' in S1. lia.
Qed.

Definition good {A : Type} (P : penv) (s : pst) (Q : A -> pst -> Prop) (o : outcome (pres A)) : Prop :=
  o = Ret PErr \/ exists a s', o = Ret (POk a s') /\ sok P s' /\ (m s' <= m s)%nat /\ Q a s'.
Definition any {A : Type} (a : A) (s : pst) : Prop := True.

Lemma good_bind : forall {A B : Type} P s (Q : A -> pst -> Prop) (Q2 : B -> pst -> Prop) o k,
  good P s Q o ->
  (forall a s', sok P s' -> (m s' <= m s)%nat -> Q a s' -> good P s Q2 (k a s')) ->
  good P s Q2 (pbind o k).
Proof.
  intros A B P s Q Q2 o k [-> |(a & s' & -> & OK & LM & QA)] K; [left; reflexivity|]. cbn [pbind].
  apply (K a s' OK LM QA).
Qed.
Lemma good_err : forall {A : Type} P s (Q : A -> pst -> Prop), good P s Q Parse_Error.
Proof. intros A P s Q. left. reflexivity. Qed.
Lemma good_weak : forall {A : Type} P s s0 (Q : A -> pst -> Prop) o, (m s0 <= m s)%nat -> good P s0 Q o -> good P s Q o.
Proof.
  intros A P s s0 Q o L [-> |(a & s' & -> & OK & LM & QA)]; [left; reflexivity|]. right. exists a, s'.
  split; [reflexivity|]. split; [exact OK|]. split; [lia|exact QA].
Qed.
Lemma good_ret : forall {A : Type} P s (Q : A -> pst -> Prop) a, sok P s -> Q a s -> good P s Q (Ret (POk a s)).
Proof. intros A P s Q a OK QA. right. exists a, s. split; [reflexivity|]. split; [exact OK|]. split; [lia|exact QA]. Qed.

(** after reading a token *)
Definition read_post (s : pst) (t : token) (s' : pst) : Prop :=
  p_unget s' = None /\ tok_ok t /\ (t <> TokEof -> (m s' < m s)%nat).
Lemma read_total : forall P cp s, no_conv (lx P) -> sok P s -> good P s (read_post s) (Read_Next_Token P cp s).
Proof.
  intros P cp [i u d] NC (TX & TU). cbn [p_inp p_unget] in *. unfold Read_Next_Token. cbn [p_unget p_inp p_dico].
  destruct u as [t|].
  - assert (K : forall t', tok_ok t' -> (t = TokEof -> t' = TokEof) -> good P (Pst i (Some t) d) (read_post (Pst i (Some t) d)) (Ret (POk t' (Pst i None d)))).
    { intros t' TO TE. right. exists t', (Pst i None d). split; [reflexivity|]. split; [split; [exact TX|exact I]|].
      unfold read_post, m. cbn [p_inp p_unget]. split; [destruct t; lia|]. split; [reflexivity|]. split; [exact TO|].
      intros NE. destruct t; try lia. exfalso. apply NE. apply TE. reflexivity. }
    destruct t; try (apply K; [exact TU|intros Q; exact Q || discriminate Q]).
    + destruct quoted; [apply K; [exact TU|discriminate]|]. destruct (cp && str_eqb (cstr s) [44]); apply K; try discriminate; cbn; auto 10.
    + destruct (negb cp && (c =? 44)); apply K; try discriminate; [exact I|exact TU].
  - destruct TX as (B & SE & SN & L).
    destruct (lexer_total (lx P) cp NC (S (length i)) false i B SE SN L ltac:(lia)) as (((t & err) & j) & E & PO).
    unfold Lexer_Token. rewrite E. cbn [bind]. destruct err; [left; reflexivity|]. destruct (PO eq_refl) as (SJ & LJ & TO).
    right. exists t, (Pst j None d). split; [reflexivity|]. split; [split; [apply (text_suf _ _ _ SJ); repeat split; assumption|exact I]|].
    unfold read_post, m. cbn [p_inp p_unget]. pose proof (suf_len _ _ SJ). split; [lia|]. split; [reflexivity|]. split; [exact TO|].
    intros NE. destruct LJ as [LJ|LJ]; [contradiction|lia].
Qed.

Lemma unget_sok : forall P t s, sok P s -> tok_ok t -> sok P (Unget_Token t s).
Proof. intros P t s (TX & _) TO. split; [exact TX|exact TO]. Qed.
Lemma unget_m : forall t s s0, read_post s0 t s -> (m s <= m s0)%nat -> (m (Unget_Token t s) <= m s0)%nat.
Proof.
  intros t s s0 (U & _ & ST) LM. unfold m in *. unfold Unget_Token. cbn [p_inp p_unget]. rewrite U in *.
  destruct t; try (specialize (ST ltac:(discriminate)); lia). lia.
Qed.

Lemma lookup_total : forall P n s, sok P s -> Z.of_nat (length n) < 1024 -> good P s any (Lookup_In_Dico_Var n s).
Proof.
  intros P n s OK L. unfold Lookup_In_Dico_Var.
  assert (K : good P s any (if MAX_VAR_IN_TERM <=? Z.of_nat (length (p_dico s)) then Parse_Error
    else if MAX_VAR_NAME_LENGTH <=? Z.of_nat (length n) then UB
    else Ret (POk (length (p_dico s)) (Pst (p_inp s) (p_unget s) (n :: p_dico s))))).
  { destruct (_ <=? _); [apply good_err|]. unfold MAX_VAR_NAME_LENGTH. destruct (Z.leb_spec 1024 (Z.of_nat (length n))); [lia|].
    right. eexists _, _. split; [reflexivity|]. split; [exact OK|]. split; [unfold m; cbn [p_inp p_unget]; lia|exact I]. }
  destruct (str_eqb n [95]); [exact K|]. destruct (lookup_var (p_dico s) n); [|exact K]. apply good_ret; [exact OK|exact I].
Qed.

Definition some (r : option pterm) (s : pst) : Prop := r <> None.
Definition opens (c : Z) : Prop := c = 40 \/ c = 123 \/ c = 91.
Lemma strchr_opens : forall c k, In c [40; 41; 91; 93; 123; 124; 125; 44] -> strchr [40; 123; 91] c = Some k -> opens c.
Proof. intros c k I1 E. unfold opens. cbn [In] in I1. repeat destruct I1 as [<-|I1]; try discriminate E; auto. contradiction. Qed.

Definition all_total (P : penv) (f : nat) : Prop :=
  (forall prec ctx cp s, sok P s -> (4 * m s + 1 <= f)%nat -> good P s any (Parse_Term f P prec ctx cp s)) /\
  (forall prec ctx cp n q s, sok P s -> (4 * m s + 3 <= f)%nat -> good P s any (a_name f P prec ctx cp n q s)) /\
  (forall prec cp left lio a s, sok P s -> (4 * m s + 1 <= f)%nat -> good P s any (parse_loop f P prec cp left lio a s)) /\
  (forall l s, sok P s -> (4 * m s + 2 <= f)%nat -> good P s any (parse_args f P l s)) /\
  (forall c s, sok P s -> opens c -> (4 * m s + 3 <= f)%nat -> good P s any (parse_bracketed f P c s)) /\
  (forall s, sok P s -> (4 * m s + 2 <= f)%nat -> good P s any (parse_list f P true s)) /\
  (forall s, sok P s -> (4 * m s + 2 <= f)%nat -> good P s some (parse_list f P false s)).

Lemma good_bind' : forall {A B : Type} P s s0 (Q : A -> pst -> Prop) (Q2 : B -> pst -> Prop) o k,
  (m s0 <= m s)%nat -> good P s0 Q o ->
  (forall a s', sok P s' -> (m s' <= m s0)%nat -> Q a s' -> good P s Q2 (k a s')) ->
  good P s Q2 (pbind o k).
Proof.
  intros A B P s s0 Q Q2 o k L [-> |(a & s' & -> & OK & LM & QA)] K; [left; reflexivity|]. cbn [pbind].
  apply (K a s' OK LM QA).
Qed.
Lemma good_unget : forall P s s' t (r : option pterm) (Q : option pterm -> pst -> Prop), sok P s' -> (m s' <= m s)%nat -> read_post s t s' -> Q r (Unget_Token t s') ->
  good P s Q (Ret (POk r (Unget_Token t s'))).
Proof.
  intros P s s' t r Q OK LM RP QA. right. exists r, (Unget_Token t s'). split; [reflexivity|].
  split; [apply unget_sok; [exact OK|apply RP]|]. split; [apply unget_m; assumption|exact QA].
Qed.

Lemma parser_total : forall P, no_conv (lx P) -> forall f, all_total P f.
Proof.
  intros P NC. induction f as [|f (IT & IN & IL & IA & IB & IE & IF)].
  { unfold all_total. repeat split; intros; lia. }
  assert (RD := fun cp s OK => read_total P cp s NC OK).
  unfold all_total. split; [|split; [|split; [|split; [|split; [|split]]]]].
  - intros prec ctx cp s OK LF. cbn [Parse_Term]. eapply good_bind; [apply RD; exact OK|]. intros t s' OK' LM RP.
    pose proof RP as (U & TO & ST).
    assert (UG : good P s any (Ret (POk None (Unget_Token t s')))) by (apply good_unget; [exact OK'|exact LM|exact RP|exact I]).
    assert (LT : t <> TokEof -> (4 * m s' + 4 <= f)%nat) by (intros NE; specialize (ST NE); lia).
    assert (LL : forall a, t <> TokEof -> good P s any (parse_loop f P prec cp 0 false a s')).
    { intros a NE. apply (good_weak P s s'); [exact LM|]. apply IL; [exact OK'|specialize (LT NE); lia]. }
    assert (NN : forall n q, t <> TokEof -> good P s any (a_name f P prec ctx cp n q s')).
    { intros n q NE. apply (good_weak P s s'); [exact LM|]. apply IN; [exact OK'|specialize (LT NE); lia]. }
    assert (BB : forall c, opens c -> t <> TokEof -> good P s any
      (get r, s <- parse_bracketed f P c s';
       match r with
       | None => a_name f P prec ctx cp (if c =? 123 then [123; 125] else [91; 93]) false s
       | Some a => parse_loop f P prec cp 0 false a s
       end)).
    { intros c OC NE. specialize (LT NE). eapply good_bind'; [exact LM|apply IB; [exact OK'|exact OC|lia]|].
      intros r s2 OK2 LM2 _. apply (good_weak P s s2); [lia|]. destruct r; [apply IL|apply IN]; try exact OK2; lia. }
    destruct t.
    + specialize (LT ltac:(discriminate)). eapply good_bind'; [exact LM|apply lookup_total; [exact OK'|exact TO]|].
      intros i s2 OK2 LM2 _. apply (good_weak P s s2); [lia|]. apply IL; [exact OK2|lia].
    + destruct (check_int n); [apply LL; discriminate|apply good_err].
    + apply LL. discriminate.
    + apply NN. discriminate.
    + destruct (double_quotes P); [apply NN|apply LL|apply LL]; discriminate.
    + destruct (back_quotes P); [apply NN|apply LL|apply LL]; discriminate.
    + destruct (strchr [40; 123; 91] c) as [k|] eqn:EK; [|exact UG].
      apply BB; [|discriminate]. apply (strchr_opens c k); [exact TO|exact EK].
    + apply (BB 40); [left; reflexivity|discriminate].
    + exact UG.
    + exact UG.
    + exact UG.
  - intros prec ctx cp n q s OK LF. cbn [a_name]. destruct (_ && _).
    { eapply good_bind; [apply RD; exact OK|]. intros t s' OK' LM _.
      eapply good_bind'; [exact LM|apply IA; [exact OK'|lia]|]. intros l s2 OK2 LM2 _.
      apply (good_weak P s s2); [lia|]. apply IL; [exact OK2|lia]. }
    assert (PR : forall s0, sok P s0 -> (m s0 <= m s)%nat -> good P s any
      (let name (left : Z) (s : pst) : result :=
          if is_op P n && negb (general ctx) then Parse_Error
          else parse_loop f P prec cp left (is_op P n) (PAtom n) s in
        match oper P n PREFIX with
        | Some o =>
          if o_prec o <=? prec then
            get r, s <- Parse_Term f P (o_right o) TRYING_PREFIX cp s0;
            match r with
            | Some a => parse_loop f P prec cp (o_prec o) false (Create_Structure n [a]) s
            | None => if negb (general ctx) then Parse_Error else name (o_prec o) s
            end
          else name 0 s0
        | None => name 0 s0
        end)).
    { intros s0 OK0 LM0.
      assert (NA : forall left s1, sok P s1 -> (m s1 <= m s)%nat -> good P s any
        (if is_op P n && negb (general ctx) then Parse_Error else parse_loop f P prec cp left (is_op P n) (PAtom n) s1)).
      { intros left s1 OK1 LM1. destruct (_ && _); [apply good_err|]. apply (good_weak P s s1); [exact LM1|]. apply IL; [exact OK1|lia]. }
      cbv zeta. destruct (oper P n PREFIX) as [o|]; [|apply NA; assumption].
      destruct (o_prec o <=? prec); [|apply NA; assumption].
      eapply good_bind'; [exact LM0|apply IT; [exact OK0|lia]|]. intros r s2 OK2 LM2 _. destruct r as [a|].
      - apply (good_weak P s s2); [lia|]. apply IL; [exact OK2|lia].
      - destruct (negb (general ctx)); [apply good_err|]. apply NA; [exact OK2|lia]. }
    destruct (str_eqb n [45]); [|apply PR; [exact OK|lia]].
    eapply good_bind; [apply RD; exact OK|]. intros t s' OK' LM RP.
    assert (PU := PR (Unget_Token t s') (unget_sok P t s' OK' (proj1 (proj2 RP))) (unget_m t s' s RP LM)).
    assert (LL : forall a, good P s any (parse_loop f P prec cp 0 false a s')).
    { intros a. apply (good_weak P s s'); [exact LM|]. apply IL; [exact OK'|lia]. }
    destruct t; try exact PU; [destruct (check_int (- n0)); [apply LL|apply good_err]|apply LL].
  - intros prec cp left lio a s OK LF. cbn [parse_loop]. eapply good_bind; [apply RD; exact OK|]. intros t s' OK' LM RP.
    pose proof RP as (U & TO & ST).
    cbv zeta. match goal with |- good _ _ _ (match ?o with Some _ => _ | None => _ end) => remember o as op eqn:EO end.
    assert (OP : op <> None -> t <> TokEof) by (intros Q ->; apply Q; exact EO).
    assert (UG : good P s any (Ret (POk (Some a) (Unget_Token t s')))) by (apply good_unget; [exact OK'|exact LM|exact RP|exact I]).
    destruct op as [((n & o) & infix)|]; [|exact UG]. specialize (OP ltac:(discriminate)). specialize (ST OP).
    destruct lio; [apply good_err|]. destruct (_ || _); [exact UG|]. destruct infix.
    + eapply good_bind'; [exact LM|apply IT; [exact OK'|lia]|]. intros r s2 OK2 LM2 _. destruct r as [b|]; [|apply good_err].
      apply (good_weak P s s2); [lia|]. apply IL; [exact OK2|lia].
    + apply (good_weak P s s'); [exact LM|]. apply IL; [exact OK'|lia].
  - intros l s OK LF. cbn [parse_args]. destruct (_ <=? _); [apply good_err|].
    eapply good_bind; [apply IT; [exact OK|lia]|]. intros r s' OK' LM _. destruct r as [a|]; [|apply good_err].
    eapply good_bind'; [exact LM|apply RD; exact OK'|]. intros t s2 OK2 LM2 (U & TO & ST).
    destruct t; try apply good_err. specialize (ST ltac:(discriminate)). cbn [tok_ok In] in TO.
    repeat destruct TO as [<-|TO]; try apply good_err; try contradiction.
    + apply (good_weak P s s2); [lia|]. apply good_ret; [exact OK2|exact I].
    + apply (good_weak P s s2); [lia|]. apply IA; [exact OK2|lia].
  - intros c s OK OC LF. cbn [parse_bracketed]. destruct OC as [-> |[-> | ->]]; cbn [Z.eqb Pos.eqb].
    + eapply good_bind; [apply IT; [exact OK|lia]|]. intros r s' OK' LM _. destruct r as [a|]; [|apply good_err].
      eapply good_bind'; [exact LM|apply RD; exact OK'|]. intros t s2 OK2 LM2 (U & TO & ST).
      destruct t; try apply good_err. cbn [tok_ok In] in TO.
      repeat destruct TO as [<-|TO]; try apply good_err; try contradiction.
      apply (good_weak P s s2); [lia|]. apply good_ret; [exact OK2|exact I].
    + eapply good_bind; [apply IT; [exact OK|lia]|]. intros r s' OK' LM _.
      eapply good_bind'; [exact LM|apply RD; exact OK'|]. intros t s2 OK2 LM2 (U & TO & ST).
      destruct t; try apply good_err. cbn [tok_ok In] in TO.
      repeat destruct TO as [<-|TO]; try apply good_err; try contradiction.
      apply (good_weak P s s2); [lia|]. apply good_ret; [exact OK2|exact I].
    + apply IE; [exact OK|lia].
  - intros s OK LF. cbn [parse_list]. eapply good_bind; [apply IT; [exact OK|lia]|]. intros r s' OK' LM _.
    eapply good_bind'; [exact LM|apply RD; exact OK'|]. intros t s2 OK2 LM2 (U & TO & ST).
    assert (W : forall r0, good P s any (Ret (POk r0 s2) : result)) by (intros r0; apply (good_weak P s s2); [lia|]; apply good_ret; [exact OK2|exact I]).
    destruct r as [a|]; destruct t; try apply good_err; specialize (ST ltac:(discriminate)); cbn [tok_ok In] in TO;
      repeat destruct TO as [<-|TO]; try apply good_err; try contradiction; try apply W.
    + eapply (good_bind' P s s2); [lia|apply IT; [exact OK2|lia]|]. intros d s3 OK3 LM3 _. destruct d as [d|]; [|apply good_err].
      eapply (good_bind' P s s3); [lia|apply RD; exact OK3|]. intros t s4 OK4 LM4 (U4 & TO4 & ST4).
      destruct t; try apply good_err. cbn [tok_ok In] in TO4.
      repeat destruct TO4 as [<-|TO4]; try apply good_err; try contradiction.
      apply (good_weak P s s4); [lia|]. apply good_ret; [exact OK4|exact I].
    + eapply (good_bind' P s s2); [lia|apply IF; [exact OK2|lia]|]. intros d s3 OK3 LM3 SM. destruct d as [d|]; [|exfalso; apply SM; reflexivity].
      apply (good_weak P s s3); [lia|]. apply good_ret; [exact OK3|exact I].
  - intros s OK LF. cbn [parse_list]. eapply good_bind; [apply IT; [exact OK|lia]|]. intros r s' OK' LM _.
    eapply good_bind'; [exact LM|apply RD; exact OK'|]. intros t s2 OK2 LM2 (U & TO & ST).
    destruct r as [a|]; [|apply good_err].
    assert (W : forall r0, good P s some (Ret (POk (Some r0) s2) : result)) by (intros r0; apply (good_weak P s s2); [lia|]; apply good_ret; [exact OK2|discriminate]).
    destruct t; try apply good_err; specialize (ST ltac:(discriminate)); cbn [tok_ok In] in TO;
      repeat destruct TO as [<-|TO]; try apply good_err; try contradiction; try apply W.
    + eapply (good_bind' P s s2); [lia|apply IT; [exact OK2|lia]|]. intros d s3 OK3 LM3 _. destruct d as [d|]; [|apply good_err].
      eapply (good_bind' P s s3); [lia|apply RD; exact OK3|]. intros t s4 OK4 LM4 (U4 & TO4 & ST4).
      destruct t; try apply good_err. cbn [tok_ok In] in TO4.
      repeat destruct TO4 as [<-|TO4]; try apply good_err; try contradiction.
      apply (good_weak P s s4); [lia|]. apply good_ret; [exact OK4|discriminate].
    + eapply (good_bind' P s s2); [lia|apply IF; [exact OK2|lia]|]. intros d s3 OK3 LM3 SM. destruct d as [d|]; [|exfalso; apply SM; reflexivity].
      apply (good_weak P s s3); [lia|]. apply good_ret; [exact OK3|discriminate].
Qed.

Lemma Read_Term_total : forall P dot i fuel, no_conv (lx P) -> text_ok (lx P) i -> (4 * length i + 1 <= fuel)%nat ->
  exists r, Read_Term fuel P dot i = Ret r.
Proof.
  intros P dot i fuel NC TX LF. unfold Read_Term.
  destruct (parser_total P NC fuel) as (IT & _).
  assert (OK : sok P (Pst i None [])) by (split; [exact TX|exact I]).
  assert (G := IT MAX_PREC GENERAL_TERM false (Pst i None []) OK ltac:(unfold m; cbn [p_inp p_unget]; lia)).
  destruct G as [-> |(r & s' & -> & OK' & _)]; cbn [pbind]; [eexists; reflexivity|].
  destruct (read_total P false s' NC OK') as [-> |(t & s2 & -> & _)]; cbn [pbind]; [eexists; reflexivity|].
  destruct r; destruct t; cbn; try (eexists; reflexivity); destruct dot; eexists; reflexivity.
Qed.
