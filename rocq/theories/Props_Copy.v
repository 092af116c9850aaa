(** Theorems about copy_term/2, the copies of findall/assert/global variables,
    acyclic_term/1 and term_variables/2 (C14, C15, C16, C48). *)
Require Import ZArith List Bool Lia PeanoNat FinFun.
Require Import Verif.Term_Model Verif.Term_Proofs Verif.Heap_Model Verif.Heap_Proofs Verif.Unify_Model Verif.Unify_Spec.
Require Import Verif.Unify_Proofs Verif.Binding_Model Verif.Binding_Spec Verif.Copy_Model Verif.Copy_Spec Verif.Copy_Proofs.
Require Import Verif.Copy_Proofs2 Verif.Copy_Proofs3 Verif.Copy_Proofs4 Verif.Acyclic_Model Verif.Acyclic_Proofs Verif.Mem_Example.
Import ListNotations.
Open Scope Z_scope.

(** [lim] is MAX_VAR_IN_TERM.  Hypotheses: a finite term without FD variable, and room
    for the copy ([words_of t] free cells from [base] on; the C code does not test it). *)

(** C14: either the term has more than [lim] variables and an error is thrown, or the copy is
    a variant made of new cells only and the rest of the memory, the original term
    included, is as before. *)
Theorem C14_copy_term :
  forall L m lim base w t, wf L m -> wf_word L m w -> den m w t -> nofd t = true ->
  (forall x, base <= x < base + words_of t -> m x = None) ->
  exists F r, (forall fuel, (F <= fuel)%nat -> Copy_Term lim fuel m base w = Ret r) /\
  match r with
  | CpOk m' => ~ more_vars lim t /\ exists ro w', copied m m' base t ro w' /\
      den m' w t /\ den m' w' (ren ro t) /\ (0 <= base -> base + words_of t <= L -> wf L m')
  | CpTooMany _ => more_vars lim t
  | CpFd => False
  end.
Proof.
  intros L m lim base w t W Ww D Nf Free.
  destruct (Copy_correct L m lim base w t W Free D Ww Nf) as (F & r & H & Hr). exists F, r. split; auto.
  destruct r as [m'|m'|]; [|tauto|tauto].
  destruct Hr as (Nm & Fr & Ok & Re & w' & ro & E & Dr & Im & Ij). split; auto.
  assert (Sb : sub m m') by (intros x c Ex; rewrite Fr; auto; intros R; rewrite Free in Ex by auto; discriminate).
  assert (Sb' : sub (region base (base + words_of t) m') m') by (intros x c Ex; now apply region_some in Ex).
  exists ro, w'. split; [|split; [|split]].
  - split; auto. intros x R. destruct (Ok x R) as (c & -> & _). discriminate.
  - apply (proj1 (den_sub_both _ _ Sb)). exact D.
  - apply (proj1 (den_sub_both _ _ Sb')). exact Dr.
  - intros P1 P2. exact (copy_wf L m m' base (base + words_of t) W P1 P2 Free Fr Ok).
Qed.

(** the number of words computed beforehand is the number of words used *)
Theorem C14_term_size :
  forall L m fd w t, wf L m -> wf_word L m w -> den m w t -> nofd t = true ->
  exists F, forall fuel, (F <= fuel)%nat -> Term_Size fd fuel m w = Ret (words_of t).
Proof. intros L m fd w t W Ww D Nf. exact (proj1 (Size_both L fd m W) w t D Ww Nf). Qed.

(** copy_term/2: the copy is made at H, then unified with the second argument in a
    well-formed memory (C09-C11 are about that unification) *)
Theorem C14_copy_term_2 :
  forall L fd c s lim u v t, wf L (mm (hm s)) -> wf_word L (mm (hm s)) u -> den (mm (hm s)) u t -> nofd t = true ->
  0 <= hH s -> hH s + words_of t <= L -> ~ more_vars lim t ->
  (forall x, hH s <= x < hH s + words_of t -> mm (hm s) x = None) ->
  exists F m' ro w', copied (mm (hm s)) m' (hH s) t ro w' /\ wf L m' /\ den m' u t /\ den m' w' (ren ro t) /\
    forall fuel, (F <= fuel)%nat -> Copy_Term_2 fd lim fuel c s u v =
      (do x <- Unify false fuel c (St m' (tr (hm s))) w' v; Ret (BRet (fst x, Hst (snd x) (hH s + words_of t)))).
Proof.
  intros L fd c s lim u v t W Wu D Nf P1 P2 Nm Free.
  destruct (C14_term_size L _ fd u t W Wu D Nf) as [F1 H1].
  destruct (C14_copy_term L _ lim (hH s) u t W Wu D Nf Free) as (F2 & r & H2 & Hr).
  destruct r as [m'|m'|]; [|tauto|tauto]. destruct Hr as (_ & ro & w' & C & D1 & D2 & W').
  exists (F1 + F2)%nat, m', ro, w'. split; auto. split; auto. split; auto. split; auto.
  intros fuel Lf. unfold Copy_Term_2. rewrite H1, H2 by lia. cbn [bind].
  unfold rd_word. rewrite (cpd_root _ _ _ _ _ _ C). reflexivity.
Qed.

(** when the error too_many_variables is thrown the original term is left damaged: some
    of its variables are bound (without a trail entry) to cells of the abandoned copy *)
Theorem C14_too_many_refuted : forall lim, (0 < lim)%nat -> exists L m w t base, wf L m /\ wf_word L m w /\
  den m w t /\ nofd t = true /\ (forall x, base <= x < base + words_of t -> m x = None) /\
  exists F m', (forall fuel, (F <= fuel)%nat -> Copy_Term lim fuel m base w = Ret (CpTooMany m')) /\
  exists a d, In a (occs false t) /\ m a = Some (Word (REF a)) /\ m' a = Some (Word (REF d)) /\ d >= base.
Proof.
  intros lim Hl. set (n := S lim).
  set (m := fun x => if x =? 1 then Some (Func 7 n) else if (2 <=? x) && (x <? 2 + Z.of_nat n) then Some (Word (REF x)) else None).
  set (base := 3 + Z.of_nat n). set (ts := map (fun i => TVar (2 + Z.of_nat i)) (seq 0 n)). set (t := TCmp 7 ts).
  assert (Ev : forall x, 2 <= x < 2 + Z.of_nat n -> m x = Some (Word (REF x))).
  { intros x R. unfold m. destruct (Z.eqb_spec x 1), (Z.leb_spec 2 x), (Z.ltb_spec x (2 + Z.of_nat n)); cbn; auto; lia. }
  assert (En : forall x c, m x = Some c -> (x = 1 /\ c = Func 7 n) \/ (2 <= x < 2 + Z.of_nat n /\ c = Word (REF x))).
  { intros x c. unfold m. destruct (Z.eqb_spec x 1), (Z.leb_spec 2 x), (Z.ltb_spec x (2 + Z.of_nat n)); cbn; try discriminate;
      intros E; injection E as <-; auto; right; split; auto; lia. }
  assert (W : wf base m).
  { split.
    - intros a c E. apply En in E. lia.
    - intros a w E. apply En in E as [[_ Q]|[R Q]]; [discriminate|]. injection Q as ->. cbn. eauto.
    - intros a b E. apply En in E as [[_ Q]|[R Q]]; [discriminate|]. injection Q as ->. lia.
    - intros a w E. assert (E' := E). apply En in E as [[_ Q]|[R Q]]; [discriminate|]. injection Q as ->.
      exists (REF a). now apply drf_self. }
  assert (Lt : length ts = n) by (unfold ts; now rewrite map_length, seq_length).
  assert (Ds : forall k i, (i + k = n)%nat -> den_args m (2 + Z.of_nat i) (map (fun i => TVar (2 + Z.of_nat i)) (seq i k))).
  { induction k as [|k IH]; intros i Hi; cbn [seq map]; [constructor|].
    econstructor; [apply Ev; lia|apply den_var, Ev; lia|]. replace (2 + Z.of_nat i + 1) with (2 + Z.of_nat (S i)) by lia.
    apply IH. lia. }
  assert (D : den m (STC 1) t).
  { apply den_stc; [now rewrite Lt|]. apply (Ds n 0%nat). reflexivity. }
  assert (Ww : wf_word base m (STC 1)).
  { exists 7, n. split; auto. split; [unfold n; lia|]. split; [intros [Q _]; discriminate|].
    split; [unfold base; lia|]. intros i Hi. exists (REF (1 + 1 + Z.of_nat i)). apply Ev. lia. }
  assert (Nf : nofd t = true).
  { cbn [nofd t]. unfold ts. generalize (seq 0 n). intros l. clear. induction l; cbn; auto. }
  assert (Oc : occs false t = map (fun i => 2 + Z.of_nat i) (seq 0 n)).
  { cbn [occs t]. unfold ts. generalize (seq 0 n). intros l. clear. induction l; cbn; auto. now f_equal. }
  assert (Mv : more_vars lim t).
  { exists (map (fun i => 2 + Z.of_nat i) (seq 0 n)). rewrite Oc. split; [|split; [apply incl_refl|]].
    - apply Injective_map_NoDup; [intros x y Q; lia|apply seq_NoDup].
    - rewrite map_length, seq_length. unfold n. lia. }
  assert (Free : forall x, base <= x < base + words_of t -> m x = None).
  { intros x R. destruct (m x) as [c|] eqn:E; auto. apply En in E. unfold base in R. lia. }
  exists base, m, (STC 1), t, base. split; auto. split; auto. split; auto. split; auto. split; auto.
  destruct (Copy_correct base m lim base (STC 1) t W Free D Ww Nf) as (F & r & H & Hr).
  destruct r as [m'|m'|]; [tauto| |tauto]. exists F, m'. split; auto.
  destruct (proj2 Hr Hl) as (a & d & Ia & Ea & Ed & R). exists a, d. split; auto. split; auto. split; auto. lia.
Qed.

(** C48: the copy made in [m1] is later (the rest of the memory, [m2], being anything) copied
    again, to [dst] (solutions of findall/3, global variables, clauses): the result is the
    saved term with fresh variables at the new place, nothing else changes. *)
Theorem C48_contiguous_copy :
  forall L m0 lim base w t m1 F, wf L m0 -> wf_word L m0 w -> den m0 w t -> nofd t = true ->
  (forall x, base <= x < base + words_of t -> m0 x = None) ->
  Copy_Term lim F m0 base w = Ret (CpOk m1) ->
  exists ro w1, copied m0 m1 base t ro w1 /\
  forall m2 dst, (forall x, base <= x < base + words_of t -> m2 x = m1 x) ->
  (dst + words_of t <= base \/ base + words_of t <= dst) ->
  exists F' m3, (forall fuel, (F' <= fuel)%nat -> Copy_Contiguous_Term fuel m2 dst base = Ret m3) /\
    copied m2 m3 dst t (fun a => ro a + (dst - base)) (shiftw (dst - base) w1) /\
    (forall x, base <= x < base + words_of t -> m3 (x + (dst - base)) = option_map (shift (dst - base)) (m1 x)).
Proof.
  intros L m0 lim base w t m1 F W Ww D Nf Free Q.
  destruct (Copy_correct L m0 lim base w t W Free D Ww Nf) as (F0 & r & H & Hr).
  assert (r = CpOk m1).
  { pose proof (H (F0 + F)%nat ltac:(lia)) as H'. unfold Copy_Term in *.
    destruct (Copy_Term_Rec lim base F (Cst m0 [] (base + 1)) base w) as [r1| |] eqn:E1; try discriminate.
    rewrite (copy_mono lim base F (F0 + F) ltac:(lia) _ _ _ _ E1) in H'. cbn [bind] in *. congruence. }
  subst r. destruct Hr as (Nm & Fr & Ok & Re & w1 & ro & E & Dr & Im & Ij). exists ro, w1.
  pose proof (words_pos t) as Wp. set (top := base + words_of t) in *.
  split. { split; auto. intros x R. destruct (Ok x R) as (c & -> & _). discriminate. }
  intros m2 dst Ag Dj. set (d := dst - base).
  assert (Ok2 : forall x, base <= x < top -> exists c, m2 x = Some c /\ okc m2 base top c).
  { intros x R. destruct (Ok x R) as (c & Ec & Oc). exists c. split; [now rewrite Ag|].
    apply (okc_mono base m1 m2 top top); [lia|exact Oc| |].
    - intros y c' Ry Ey. now rewrite Ag.
    - intros y Ry Ny c' Ey. rewrite Ag in Ey by auto. congruence. }
  assert (Rg : forall x, region base top m2 x = region base top m1 x).
  { intros x. unfold region. destruct (Z.leb_spec base x), (Z.ltb_spec x top); cbn; auto. }
  assert (Sb : sub (region base top m1) (region base top m2)) by (intros x c; now rewrite Rg).
  assert (Dis : forall x, base <= x < top -> ~ (base <= x + d < top)) by (intros x R R'; unfold d, top in *; lia).
  assert (Dr2 : den (region base top m2) w1 (ren ro t)) by (apply (proj1 (den_sub_both _ _ Sb)); exact Dr).
  destruct (proj1 (Cont_both m2 base top d Ok2 Dis) w1 (ren ro t) Dr2 base m2) as (F' & m3 & H3 & I3 & _ & Dn).
  { rewrite region_in by (unfold top; lia). rewrite Ag by (unfold top; lia). exact E. }
  { intros x. now left. }
  assert (Dn' : forall x, base <= x < top -> done m2 d m3 x).
  { intros x R. apply Dn. exact (sreach_sub _ _ _ _ Sb (Re x R)). }
  exists F', m3. split; [|split].
  - intros fuel Lf. specialize (H3 fuel Lf). unfold d in H3. replace (base + (dst - base)) with dst in H3 by lia. exact H3.
  - split.
    + intros x R. destruct (I3 x) as [Qx|(y & Ry & -> & _)]; auto. exfalso. apply R. unfold d, top in *. lia.
    + specialize (Dn' base ltac:(unfold top; lia)). unfold done in Dn'. rewrite Ag, E in Dn' by (unfold top; lia).
      unfold d in Dn'. replace (base + (dst - base)) with dst in Dn' by lia. exact Dn'.
    + pose proof (proj1 (den_shift m2 base top d m3 Dn') w1 _ Dr2 ltac:(now rewrite nofd_ren)) as D3.
      rewrite ren_ren in D3. unfold d, top in D3. replace (base + (dst - base)) with dst in D3 by lia.
      replace (base + words_of t + (dst - base)) with (dst + words_of t) in D3 by lia. exact D3.
    + intros x R. specialize (Dn' (x - d) ltac:(unfold d, top in *; lia)). unfold done in Dn'.
      replace (x - d + d) with x in Dn' by lia. rewrite Dn'. rewrite Ag by (unfold d, top in *; lia).
      destruct (Ok (x - d) ltac:(unfold d, top in *; lia)) as (c & -> & _). discriminate.
    + intros a I. specialize (Im a I). unfold top in *. lia.
    + intros a b Ia Ib Qd. apply Ij; auto. lia.
  - intros x R. rewrite <- (Ag x R). apply Dn'. exact R.
Qed.

(** C15.  Hypotheses: the word at the C address of the parameter ([sw]) is not a Prolog
    cell, the address 0 (the mark is a list at 0) is not used, the memory is finite. *)
Theorem C15_acyclic_term :
  forall L sw m D w, wf L m -> m sw = None -> m 0 = None -> (forall a c, m a = Some c -> In a D) -> wf_word L m w ->
  exists F b m', (forall fuel, (F <= fuel)%nat -> Acyclic_Term_1 sw fuel m w = Ret (b, m')) /\
    (b = true <-> exists t, den m w t) /\
    (forall x, x <> sw -> m' x = m x).
Proof.
  intros L sw m D w W N1 N2 Cov Ww. destruct (Acyclic_correct L sw m D W N1 N2 Cov w Ww) as (F & b & m' & H & Fr & Hb).
  exists F, b, m'. auto.
Qed.

(** C16: called with an unbound second argument that does not occur in the term.  The
    list holds the variables (FD ones included) of the term in the order of their first
    occurrences, each once; the only cells written are the list and the variable [b]. *)
Theorem C16_term_variables :
  forall L nil lim c s w l t b, wf L (mm (hm s)) -> wf_word L (mm (hm s)) w -> den (mm (hm s)) w t ->
  derefs (mm (hm s)) l (REF b) -> mm (hm s) b = Some (Word (REF b)) -> ~ In b (occs true t) ->
  (forall x, hH s <= x < hH s + 2 * Z.of_nat (length (occs true t)) -> mm (hm s) x = None) ->
  exists F r, (forall fuel, (F <= fuel)%nat -> Term_Variables_2 nil lim fuel c s w l = Ret r) /\
  match r with
  | BThrow => exists l', NoDup l' /\ incl l' (occs true t) /\ (lim < length l')%nat
  | BRet (r, s') => r = USucc /\ exists vs us, first_occ (occs true t) vs /\ NoDup vs /\
      (forall a, In a vs <-> In a (occs true t)) /\ (length vs <= lim)%nat /\
      Forall2 (is_var (mm (hm s))) vs us /\ den (mm (hm s')) l (list_term nil us) /\
      hH s' = hH s + 2 * Z.of_nat (length vs) /\
      (forall x, x <> b -> ~ (hH s <= x < hH s') -> mm (hm s') x = mm (hm s) x) /\
      (0 <= hH s -> hH s' <= L -> (forall a, In a vs -> a < L) -> wf L (mm (hm s')))
  end.
Proof.
  intros L nil lim c s w l t b W Ww D Dl Eb Nb Free.
  destruct (Term_Variables_correct L nil lim c s w l t b W D Ww Dl Eb Nb Free) as (F & r & H & Hr). exists F, r. split; auto.
  destruct r as [[r s']|]; auto. destruct Hr as (-> & vs & us & Fo & Hl & Rest). split; auto. exists vs, us.
  split; auto. split; [exact (first_occ_NoDup _ _ Fo)|]. split; [intros a; symmetry; apply (first_occ_In _ _ Fo)|]. auto.
Qed.

(** an unbound local variable of the term is put in the list as it is: a cell of the
    heap refers to the local stack.  When the environment is discarded the list holds a
    dangling reference:  p :- term_variables(X, L), q(L, X). *)
Theorem C16_local_variable_refuted : exists L c s w l s', wf L (mm (hm s)) /\ wf_word L (mm (hm s)) w /\
  den (mm (hm s)) w (TVar 101) /\
  Term_Variables_2 91 10 10 c s w l = Ret (BRet (USucc, s')) /\ ~ wf L (mm (hm s')) /\
  den (mm (hm s')) l (list_term 91 [TVar 101]) /\
  forall t, ~ den (discard L (mm (hm s'))) l t.
Proof.
  set (m := mem_of [(5, Word (REF 5)); (101, Word (REF 101))]).
  set (s' := match Term_Variables_2 91 10 10 (Cfg 0 0 100) (Hst (St m []) 10) (REF 101) (REF 5) with
    | Ret (BRet (_, s')) => s' | _ => Hst (St m []) 10 end).
  exists 100, (Cfg 0 0 100), (Hst (St m []) 10), (REF 101), (REF 5), s'.
  split; [apply wfb_wf; reflexivity|]. split; [exists (REF 101); reflexivity|]. split; [now apply den_var|].
  split; [reflexivity|]. set (m' := mm (hm s')). assert (E10 : m' 10 = Some (Word (REF 101))) by reflexivity.
  split; [|split].
  - intros W. destruct (wf_ref _ _ W 10 101 E10) as [Q|Q]; lia.
  - apply (term_of_den m' 10). vm_compute. reflexivity.
  - intros t D. assert (N5 : ~ discard 100 m' 5 = Some (Word (REF 5))) by discriminate.
    assert (E5 : discard 100 m' 5 = Some (Word (LST 10))) by reflexivity.
    assert (Q10 : discard 100 m' 10 = Some (Word (REF 101))) by reflexivity.
    assert (N101 : discard 100 m' 101 = None) by reflexivity. clearbody m'. clear s' E10.
    inversion D as [| ? v ? Ev Nv D1| | | | | |]; subst; [contradiction|].
    assert (v = LST 10) by congruence. subst v. inversion D1; subst.
    match goal with X : den_args _ 10 _ |- _ => inversion X as [|? v ? ? Ew D3]; subst end.
    assert (v = REF 101) by congruence. subst v. inversion D3; subst; congruence.
Qed.

(** ** Examples *)
(** f(g(X), X, "2 element list" [Y, X]) *)
Definition exc_mem : mem := mem_of
  [(1, Func 102 3); (2, Word (STC 5)); (3, Word (REF 6)); (4, Word (LST 7));
   (5, Func 103 1); (6, Word (REF 6)); (7, Word (REF 14)); (8, Word (LST 9)); (9, Word (REF 6)); (10, Word (ATM 91));
   (11, Word (REF 11)); (14, Word (REF 14));
   (12, Func 104 1); (13, Word (STC 12))].
Definition exc_term : term :=
  TCmp 102 [TCmp 103 [TVar 6]; TVar 6; list_term 91 [TVar 14; TVar 6]].
Lemma exc_wf : wf 100 exc_mem.
Proof. apply wfb_wf. reflexivity. Qed.
Lemma exc_den : den exc_mem (STC 1) exc_term.
Proof. apply (term_of_den exc_mem 10). reflexivity. Qed.
Lemma exc_ww : wf_word 100 exc_mem (STC 1).
Proof. apply wf_wordb_ok. reflexivity. Qed.
Lemma exc_free : forall n x, 20 <= x < 20 + n -> n < 50 -> exc_mem x = None.
Proof.
  intros n x R Hn. destruct (exc_mem x) as [c|] eqn:E; auto. apply mem_of_In in E. cbn [In] in E.
  repeat destruct E as [E|E]; try (injection E; intros; lia). destruct E.
Qed.

Example C14_ex : exists m', words_of exc_term = 11 /\ Copy_Term 2 10 exc_mem 20 (STC 1) = Ret (CpOk m') /\
  term_of 10 m' (STC 21) = Some (TCmp 102 [TCmp 103 [TVar 26]; TVar 26; list_term 91 [TVar 27; TVar 26]]) /\
  m' 20 = Some (Word (STC 21)) /\ m' 6 = exc_mem 6 /\ m' 14 = exc_mem 14 /\ m' 30 <> None /\ m' 31 = None.
Proof. eexists. split; [reflexivity|]. split; [vm_compute; reflexivity|]. vm_compute. repeat split; discriminate. Qed.
Example C14_ex_hyps : exists F r, forall fuel, (F <= fuel)%nat -> Copy_Term 2 fuel exc_mem 20 (STC 1) = Ret r.
Proof.
  destruct (C14_copy_term 100 exc_mem 2 20 (STC 1) exc_term exc_wf exc_ww exc_den eq_refl) as (F & r & H & _);
    [intros x R; apply (exc_free 11); auto; lia|eauto].
Qed.
Example C48_ex : match Copy_Term 2 10 exc_mem 200 (STC 1) with
  | Ret (CpOk m1) =>
    match Copy_Contiguous_Term 10 m1 20 200 with
    | Ret m3 => term_of 10 m3 (STC 21) = Some (TCmp 102 [TCmp 103 [TVar 26]; TVar 26; list_term 91 [TVar 27; TVar 26]])
    | _ => False
    end
  | _ => False
  end.
Proof. vm_compute. reflexivity. Qed.
(** a finite term and the cyclic term X = h(X) *)
Example C15_ex : (exists m', Acyclic_Term_1 500 50 exc_mem (STC 1) = Ret (true, m')) /\
  (exists m', Acyclic_Term_1 500 50 exc_mem (STC 12) = Ret (false, m') /\ m' 13 = Some (Word (STC 12))) /\
  wf 100 exc_mem /\ exc_mem 500 = None /\ exc_mem 0 = None /\
  (forall a c, exc_mem a = Some c -> In a [1;2;3;4;5;6;7;8;9;10;11;12;13;14]) /\ wf_word 100 exc_mem (STC 12).
Proof.
  split; [eexists; vm_compute; reflexivity|]. split; [eexists; split; vm_compute; reflexivity|].
  split; [exact exc_wf|]. split; [reflexivity|]. split; [reflexivity|]. split.
  - intros a c E. apply mem_of_In in E. cbn [In] in E. repeat destruct E as [E|E]; try (injection E; intros; subst; cbn; tauto). destruct E.
  - apply wf_wordb_ok. reflexivity.
Qed.
Example C16_ex : exists s', Term_Variables_2 91 10 20 (Cfg 0 0 100) (Hst (St exc_mem []) 20) (STC 1) (REF 11) = Ret (BRet (USucc, s')) /\
  term_of 10 (mm (hm s')) (REF 11) = Some (list_term 91 [TVar 6; TVar 14]) /\ hH s' = 24.
Proof. eexists. split; [vm_compute; reflexivity|]. split; vm_compute; reflexivity. Qed.

Print Assumptions C14_copy_term.
Print Assumptions C14_term_size.
Print Assumptions C14_copy_term_2.
Print Assumptions C14_too_many_refuted.
Print Assumptions C48_contiguous_copy.
Print Assumptions C15_acyclic_term.
Print Assumptions C16_term_variables.
Print Assumptions C16_local_variable_refuted.
