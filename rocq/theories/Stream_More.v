Require Import ZArith List Bool Lia Arith.
Require Import Verif.Heap_Model Verif.Stream_Model Verif.Stream_Spec Verif.Stream_Proofs Verif.Stream_Pos.
Import ListNotations.
Open Scope Z_scope.

(** ** Positions are restored *)
Lemma get_position_at g q r u s : at_ q r u s -> (nb (pb_char s) <= length u)%nat -> reposition g = true -> is_text g = true ->
  Get_Position g s = (Z.of_nat (length (r ++ q)), Z.of_nat (length (r ++ q)), Z.of_nat (nl (r ++ q)), col (r ++ q)).
Proof.
  intros A N P T. unfold Get_Position. rewrite P, T. destruct A as [F By E Wc Wl V O CC LC LP NB RI EN]. rewrite CC, LC, LP, O. repeat f_equal. lia.
Qed.
Lemma set_position_at g q u s : file s = rev q ++ u -> Forall (fun c => 0 <= c) (file s) -> is_text g = true ->
  exists s', Set_Position g s SET (Z.of_nat (length q)) (Z.of_nat (length q)) (Z.of_nat (nl q)) (col q) = (true, s') /\ at_ q [] u s' /\ nb (pb_char s') = 0%nat.
Proof.
  intros F B T. unfold Set_Position, CALL_SEEK. destruct (Z.ltb_spec (Z.of_nat (length q)) 0); [lia|]. rewrite T, Nat2Z.id.
  eexists. split; [reflexivity|]. cbn [with_off with_pos with_eof with_pbc with_pbl]. split; [|reflexivity].
  constructor; cbn [file off eof_reached pb_char pb_line_pos char_count line_count line_pos PB_Init nb ptr app]; try assumption; try reflexivity; try (unfold wf; cbn; lia); try lia; try (intros i Hi; lia).
  intros k. unfold view; cbn [with_off with_pos with_eof with_pbc with_pbl file pb_char nb PB_Init off Nat.ltb Nat.leb]. rewrite F. rewrite app_nth2 by (rewrite rev_length; lia). rewrite rev_length. unfold of_text. f_equal. lia.
Qed.

(** ** Line and column *)
Record weak (P : pb) (r u : list Z) (s : stm) : Prop := Weak {
  we_file : file s = rev r ++ u; we_bytes : Forall (fun c => 0 <= c) (file s); we_eof : eof_reached s = false;
  we_pbc : pb_char s = P; we_nb : nb P = 0%nat; we_wfl : wf (pb_line_pos s); we_off : off s = length r;
  we_cc : char_count s = Z.of_nat (length r); we_lc : line_count s = Z.of_nat (nl r); we_lp : line_pos s = col r }.
Lemma weak_before g P r u s : weak P r u s -> Before_Reading g s = inr s.
Proof. intros A. unfold Before_Reading. rewrite (we_eof _ _ _ _ A). reflexivity. Qed.
Lemma weak_get g P r c u s : weak P r (c :: u) s -> exists s', Getc g s = (Code c, s') /\ weak P (c :: r) u s' /\ (c =? EOF) = false.
Proof.
  intros A. rewrite (Getc_eq g s s (weak_before g _ _ _ _ A)). destruct A as [F By E Pc N Wl O CC LC LP].
  assert (Ac : 0 <= c). { rewrite F in By. apply Forall_app in By. destruct By as [_ By]. inversion By; assumption. }
  assert (CE : (c =? EOF) = false) by (apply Z.eqb_neq; unfold EOF; lia).
  assert (NE : nth_error (file s) (off s) = Some c) by (rewrite F, O, nth_error_app2 by (rewrite rev_length; lia); rewrite rev_length, Nat.sub_diag; reflexivity).
  unfold take, PB_Is_Empty. rewrite Pc, N. cbn [Nat.eqb]. unfold CALL_GETC. rewrite NE, CE.
  eexists. split; [reflexivity|]. split; [|reflexivity].
  unfold Update_Counters, put_line. rewrite CE. change NL with 10. cbn [with_off pb_line_pos line_pos].
  destruct (c =? 10) eqn:C10; (constructor; cbn [with_off with_pbl with_pos file eof_reached pb_char pb_line_pos off char_count line_count line_pos length]; try assumption; try lia).
  all: try (rewrite F; cbn [rev]; rewrite <- app_assoc; reflexivity).
  all: try (apply push_wf; assumption).
  all: try (rewrite nl_cons, C10; lia).
  all: cbn [col]; rewrite C10; lia.
Qed.
Lemma weak_end g P r s : weak P r [] s -> exists s', Getc g s = (Code EOF, s') /\ file s' = file s /\ pb_char s' = P /\ wf (pb_line_pos s').
Proof.
  intros A. rewrite (Getc_eq g s s (weak_before g _ _ _ _ A)). destruct A as [F By E Pc N Wl O CC LC LP].
  assert (NE : nth_error (file s) (off s) = None) by (apply nth_error_None; rewrite F, O, app_length, rev_length; cbn [length]; lia).
  unfold take, PB_Is_Empty. rewrite Pc, N. cbn [Nat.eqb]. unfold CALL_GETC. rewrite NE.
  eexists. split; [reflexivity|]. rewrite uc_file, uc_pbc, uc_pbl. cbn. split; [reflexivity|]. split; assumption.
Qed.
Definition ext (r u : list Z) (lc lp : Z) : Prop := exists x v, u = x ++ v /\ Z.of_nat (nl (rev x ++ r)) = lc /\ col (rev x ++ r) = lp.
Definition lost (P : pb) (f : list Z) (s : stm) : Prop := file s = f /\ pb_char s = P /\ wf (pb_line_pos s).
Lemma ext_step r c u lc lp : (Z.of_nat (nl r) < lc \/ col r < lp) -> ext r (c :: u) lc lp <-> ext (c :: r) u lc lp.
Proof.
  intros L. split.
  - intros ([|y x] & v & A & B & C); cbn [rev app] in *; [lia|]. injection A as <- ->. exists x, v. rewrite <- app_assoc in B, C. cbn [app] in B, C. auto.
  - intros (x & v & -> & B & C). exists (c :: x), v. cbn [rev app]. rewrite <- app_assoc. auto.
Qed.
Lemma ext_nil r lc lp : (Z.of_nat (nl r) < lc \/ col r < lp) -> ~ ext r [] lc lp.
Proof. intros L ([|y x] & v & A & B & C); [cbn [rev app] in *; lia|discriminate]. Qed.
Lemma cols_ok g P lc lp : forall fuel r u s, (length u < fuel)%nat -> weak P r u s -> Z.of_nat (nl r) = lc -> col r <= lp ->
  exists b s', lc_cols fuel g s lp = Ret (b, s') /\ (if b then ext r u lc lp /\ exists r' u', weak P r' u' s' /\ file s' = file s /\ Z.of_nat (nl r') = lc /\ col r' = lp else ~ ext r u lc lp /\ lost P (file s) s').
Proof.
  induction fuel as [|fuel IH]; intros r u s Fu A NL_ CL; [lia|]. cbn [lc_cols]. rewrite (we_lp _ _ _ _ A).
  destruct (Z.ltb_spec (col r) lp) as [L|L].
  - destruct u as [|c u].
    + destruct (weak_end g P r s A) as (s1 & G & B). rewrite G. cbn [Z.eqb EOF orb]. exists false, s1. split; [reflexivity|]. split; [apply ext_nil; lia|exact B].
    + destruct (weak_get g P r c u s A) as (s1 & G & B & CE). rewrite G, CE. cbn [orb]. change NL with 10. cbn [length] in Fu.
      assert (FF : file s1 = file s) by (rewrite (we_file _ _ _ _ A), (we_file _ _ _ _ B); cbn [rev]; rewrite <- app_assoc; reflexivity).
      destruct (c =? 10) eqn:C10.
      * exists false, s1. split; [reflexivity|]. split.
        -- rewrite ext_step by lia. intros (x & v & _ & X & _). rewrite nl_app, nl_cons, C10 in X. lia.
        -- split; [exact FF|]. split; [exact (we_pbc _ _ _ _ B)|exact (we_wfl _ _ _ _ B)].
      * destruct (IH (c :: r) u s1 ltac:(lia) B) as (b & s2 & E & R).
        { rewrite nl_cons, C10. exact NL_. } { cbn [col]. rewrite C10. lia. }
        exists b, s2. split; [exact E|]. rewrite <- FF. pose proof (ext_step r c u lc lp ltac:(lia)) as X. destruct b; rewrite X; exact R.
  - exists true, s. split; [reflexivity|]. split; [exists [], u; cbn [rev app]; repeat split; lia|]. exists r, u. split; [exact A|]. split; [reflexivity|]. split; lia.
Qed.
Lemma lines_ok g P lc lp n : 0 <= lp -> forall fuel r u s, (length u < fuel)%nat -> (length (rev r ++ u) < n)%nat -> weak P r u s -> (Z.of_nat (nl r) < lc \/ (Z.of_nat (nl r) = lc /\ col r = 0)) ->
  exists b s', (do x <- lc_lines fuel g s lc; if fst x then lc_cols n g (snd x) lp else Ret x) = Ret (b, s') /\
    (if b then ext r u lc lp /\ exists r' u', weak P r' u' s' /\ file s' = file s /\ Z.of_nat (nl r') = lc /\ col r' = lp else ~ ext r u lc lp /\ lost P (file s) s').
Proof.
  intros LPn. induction fuel as [|fuel IH]; intros r u s Fu Fn A I0; [lia|]. cbn [lc_lines]. rewrite (we_lc _ _ _ _ A).
  destruct (Z.ltb_spec (Z.of_nat (nl r)) lc) as [L|L].
  - destruct u as [|c u].
    + destruct (weak_end g P r s A) as (s1 & G & B). rewrite G. cbn [Z.eqb EOF]. exists false, s1. split; [reflexivity|]. split; [apply ext_nil; lia|exact B].
    + destruct (weak_get g P r c u s A) as (s1 & G & B & CE). rewrite G, CE. cbn [length] in Fu.
      assert (FF : file s1 = file s) by (rewrite (we_file _ _ _ _ A), (we_file _ _ _ _ B); cbn [rev]; rewrite <- app_assoc; reflexivity).
      destruct (IH (c :: r) u s1 ltac:(lia)) as (b & s2 & E & R); [cbn [rev]; rewrite <- app_assoc; exact Fn|exact B| |].
      { rewrite nl_cons. cbn [col]. destruct (c =? 10); lia. }
      exists b, s2. split; [exact E|]. rewrite <- FF. pose proof (ext_step r c u lc lp ltac:(lia)) as X. destruct b; rewrite X; exact R.
  - cbn [bind fst snd]. apply cols_ok; [rewrite app_length in Fn; lia|exact A|lia|lia].
Qed.
Lemma is_pos_iff t lc lp : is_pos t (Z.of_nat (length t), lc, lp) <-> Z.of_nat (nl (rev t)) = lc /\ col (rev t) = lp.
Proof.
  pose proof (is_pos_rev (rev t)) as Q. rewrite rev_involutive, rev_length in Q. split.
  - intros X. pose proof (is_pos_fun _ _ _ X Q) as Y. injection Y as <- <-. auto.
  - intros [<- <-]. exact Q.
Qed.
Lemma ext_has f lc lp : ext [] f lc lp <-> exists t, has_pos f t lc lp.
Proof.
  split.
  - intros (x & v & -> & B & C). rewrite app_nil_r in B, C. exists x. split; [eauto|]. apply is_pos_iff. auto.
  - intros (t & (v & ->) & X). apply is_pos_iff in X. exists t, v. rewrite app_nil_r. tauto.
Qed.
Lemma set_lc_ok g s lc lp : Forall (fun c => 0 <= c) (file s) -> wf (pb_char s) -> wf (pb_line_pos s) -> 0 <= lc -> 0 <= lp ->
  exists b s', Set_Position_LC g s lc lp = Ret (b, s') /\
    if b then exists q u, has_pos (file s) (rev q) lc lp /\ at_ q [] u s' /\ file s' = file s /\ nb (pb_char s') = 0%nat
    else (~ exists t, has_pos (file s) t lc lp) /\ exists p, s' = with_pbl s p.
Proof.
  intros By Wc Wl L1 L2. unfold Set_Position_LC.
  set (P := PB (buff (pb_char s)) (ptr (pb_char s)) 0).
  set (s1 := with_pos (with_pbc (with_eof (with_off s 0) false) P) 0 0 0).
  assert (A : weak P [] (file s) s1) by (constructor; try reflexivity; assumption).
  destruct (lines_ok g P lc lp (S (length (file s))) L2 (S (length (file s))) [] (file s) s1) as (b & s2 & E & R); [lia|cbn [rev app]; lia|exact A|cbn; lia|].
  change (file s1) with (file s) in R.
  destruct (lc_lines (S (length (file s))) g s1 lc) as [x| |]; cbn [bind] in *; try discriminate. rewrite E. cbn [bind fst snd].
  pose proof (ext_has (file s) lc lp) as X. destruct b.
  - eexists true, _. split; [reflexivity|]. destruct R as (_ & r' & u' & W & FF & N1 & N2). exists r', u'.
    destruct W as [F B2 E2 Pc N Wl2 O CC LC LP].
    split; [split; [exists u'; rewrite <- FF; exact F|apply is_pos_iff; rewrite rev_involutive; auto]|].
    split; [|split; [exact FF|reflexivity]].
    constructor; cbn [with_pbl with_pbc file eof_reached pb_char pb_line_pos off char_count line_count line_pos PB_Init nb ptr app]; try assumption; try (unfold wf; cbn; lia); try lia; try reflexivity.
    intros k. unfold view; cbn [with_pbl with_pbc pb_char nb PB_Init file off]. cbn [Nat.ltb Nat.leb]. rewrite F, O, app_nth2 by (rewrite rev_length; lia). rewrite rev_length. unfold of_text. f_equal. lia.
  - eexists false, _. split; [reflexivity|]. destruct R as (NE & FF & Pc & _). split; [rewrite <- X; exact NE|].
    exists (pb_line_pos s2). unfold with_off, with_pbc, with_pos, with_eof, with_pbl. cbn [file off eof_reached pb_char char_count line_count line_pos pb_line_pos].
    rewrite FF, Pc. unfold P. cbn [buff ptr nb]. destruct (pb_char s). reflexivity.
Qed.

(** ** Lines *)
Lemma put_byte_ok size l c : (length l < size)%nat -> put_byte size l c = Ret (l ++ [c]).
Proof. intros L. unfold put_byte. destruct (Nat.ltb_spec (length l) size); [reflexivity|lia]. Qed.
Lemma gets_loop_ok g q size : forall fuel u r s l, at_ q r u s -> (size <= fuel + length l)%nat ->
  if Nat.ltb (length l + length (first_line u)) size
  then exists s', gets_loop fuel g s size l = Ret (match l ++ first_line u with [] => None | x => Some (x ++ [0]) end, s')
  else gets_loop fuel g s size l = UB.
Proof.
  induction fuel as [|fuel IH]; intros u r s l A Fu.
  - cbn [gets_loop]. destruct (Nat.leb_spec size (length l)); [|lia]. destruct (Nat.ltb_spec (length l + length (first_line u)) size); [lia|].
    unfold put_byte. destruct (Nat.ltb_spec (length l) size); [lia|]. reflexivity.
  - cbn [gets_loop]. destruct (Nat.leb_spec size (length l)) as [S0|S0].
    { destruct (Nat.ltb_spec (length l + length (first_line u)) size); [lia|]. unfold put_byte. destruct (Nat.ltb_spec (length l) size); [lia|]. reflexivity. }
    destruct u as [|c u].
    + cbn [first_line length]. rewrite Nat.add_0_r, app_nil_r. destruct (Nat.ltb_spec (length l) size) as [S1|S1]; [|lia].
      rewrite (Getc_eq g s s (at_before g _ _ _ _ A)). pose proof (take_ok s (at_wfc _ _ _ _ A)) as T. destruct (take s) as [c s1]. destruct T as [T0 _].
      rewrite (at_view _ _ _ _ A) in T0. change (of_text [] 0) with EOF in T0. subst c. cbn [EOF Z.eqb].
      destruct l as [|x l]; [eexists; reflexivity|]. unfold put_byte. destruct (Nat.ltb_spec (length (x :: l)) size); [|lia]. cbn [bind]. eexists. reflexivity.
    + destruct (get_at g q r c u s A) as (s1 & G & A1 & _). rewrite G. pose proof (at_char _ _ _ _ _ A).
      replace (c =? EOF) with false by (symmetry; apply Z.eqb_neq; unfold EOF; lia).
      rewrite (put_byte_ok size l c) by exact S0. cbn [bind first_line]. change NL with 10.
      destruct (c =? 10).
      * cbn [length]. unfold put_byte. rewrite app_length. cbn [length].
        destruct (Nat.ltb_spec (length l + 1) size); [|reflexivity]. cbn [bind]. eexists. destruct (l ++ [c]) eqn:LE; [apply app_eq_nil in LE; destruct LE; discriminate|]. reflexivity.
      * specialize (IH u (c :: r) s1 (l ++ [c]) A1). rewrite app_length in IH. cbn [length] in IH |- *. specialize (IH ltac:(lia)).
        replace (length l + S (length (first_line u)))%nat with (length l + 1 + length (first_line u))%nat by lia.
        rewrite <- app_assoc in IH. cbn [app] in IH. exact IH.
Qed.

(** ** Output *)
Record out (r : list Z) (s : ostm) : Prop := Out {
  ou_ptr : o_ptr s = length r; ou_alloc : Z.of_nat (length r) < o_alloc s <= Z.of_nat (length r) + 1024;
  ou_buf : forall i, (i < length r)%nat -> o_buf s i = nth_error (rev r) i;
  ou_cc : o_cc s = Z.of_nat (length r); ou_lc : o_lc s = Z.of_nat (nl r); ou_lp : o_lp s = col r }.
Lemma out_new : out [] New_Str_Stream.
Proof. constructor; try reflexivity; cbn [length New_Str_Stream o_alloc]; [unfold BLOCK; lia|intros i Hi; lia]. Qed.
Lemma putc_ok r s c : out r s -> 0 <= c -> Z.of_nat (length r) + 1025 < 2 ^ 31 -> exists s', Putc s c = Ret s' /\ out (c :: r) s'.
Proof.
  intros [P A B CC LC LP] Hc L. unfold Putc, Str_Stream_Putc. rewrite P. change BLOCK with 1024.
  assert (W : exists s1, (if o_alloc s - 1 <=? Z.of_nat (length r) then if o_alloc s + 1024 <? 2 ^ 31 then Ret (Ostm (o_buf s) (length r) (o_alloc s + 1024) (o_cc s) (o_lc s) (o_lp s)) else UB else Ret s) = Ret s1 /\
    o_buf s1 = o_buf s /\ o_ptr s1 = length r /\ Z.of_nat (length r) + 1 < o_alloc s1 <= Z.of_nat (length r) + 1025 /\ o_cc s1 = o_cc s /\ o_lc s1 = o_lc s /\ o_lp s1 = o_lp s).
  { destruct (Z.leb_spec (o_alloc s - 1) (Z.of_nat (length r))).
    - destruct (Z.ltb_spec (o_alloc s + 1024) (2 ^ 31)); [|lia]. eexists. split; [reflexivity|]. cbn [o_buf o_ptr o_alloc o_cc o_lc o_lp]. repeat split; lia.
    - exists s. split; [reflexivity|]. repeat split; try assumption; lia. }
  destruct W as (s1 & -> & W1 & W2 & W3 & W4 & W5 & W6). cbn [bind]. unfold write_buf. rewrite W2.
  destruct (Z.ltb_spec (Z.of_nat (length r)) (o_alloc s1)); [|lia]. cbn [bind o_buf o_ptr o_alloc o_cc o_lc o_lp].
  eexists. split; [reflexivity|]. replace (c =? EOF) with false by (symmetry; apply Z.eqb_neq; unfold EOF; lia). change NL with 10. rewrite W1, W4, W5, W6.
  assert (BB : forall i, (i < length (c :: r))%nat -> (if Nat.eqb i (length r) then Some c else o_buf s i) = nth_error (rev (c :: r)) i).
  { intros i Hi. cbn [rev length] in *. destruct (Nat.eqb_spec i (length r)) as [->|N].
    - rewrite nth_error_app2 by (rewrite rev_length; lia). rewrite rev_length, Nat.sub_diag. reflexivity.
    - rewrite nth_error_app1 by (rewrite rev_length; lia). apply B. lia. }
  destruct (c =? 10) eqn:C10; (constructor; cbn [o_buf o_ptr o_alloc o_cc o_lc o_lp]; [reflexivity|cbn [length]; lia|exact BB|cbn [length]; lia|rewrite nl_cons, C10; lia|cbn [col]; rewrite C10; lia]).
Qed.
Lemma puts_ok l : forall r s, out r s -> Forall (fun c => 0 <= c) l -> Z.of_nat (length r + length l) + 1024 < 2 ^ 31 -> exists s', Puts s l = Ret s' /\ out (rev l ++ r) s'.
Proof.
  induction l as [|c l IH]; intros r s O B L; cbn [Puts].
  - exists s. split; [reflexivity|exact O].
  - inversion B; subst. cbn [length] in L. destruct (putc_ok r s c O) as (s1 & E & O1); [assumption|lia|]. rewrite E. cbn [bind].
    destruct (IH (c :: r) s1 O1) as (s2 & E2 & O2); [assumption|cbn [length]; lia|]. exists s2. split; [exact E2|]. cbn [rev]. rewrite <- app_assoc. exact O2.
Qed.
Lemma terminate_ok r s : out r s -> exists s', Terminate s = Ret s' /\ o_buf s' (length r) = Some 0 /\ (forall i, (i < length r)%nat -> o_buf s' i = nth_error (rev r) i).
Proof.
  intros [P A B CC LC LP]. unfold Terminate, write_buf. rewrite P. destruct (Z.ltb_spec (Z.of_nat (length r)) (o_alloc s)); [|lia].
  eexists. split; [reflexivity|]. cbn [o_buf]. split; [rewrite Nat.eqb_refl; reflexivity|]. intros i Hi. destruct (Nat.eqb_spec i (length r)); [lia|]. apply B. exact Hi.
Qed.
