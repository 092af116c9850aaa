(** The stack of solutions: what it holds, and what Pl_Recover_Solutions_4 builds. *)
Require Import ZArith List Bool Lia.
Require Import Verif.Term_Model Verif.Heap_Model Verif.Unify_Model Verif.Unify_Spec Verif.Term_Proofs Verif.Heap_Proofs.
Require Import Verif.Copy_Model Verif.Copy_Spec Verif.Copy_Proofs Verif.Copy_Proofs2 Verif.Copy_Proofs3 Verif.Findall_Model Verif.Findall_Spec Verif.KeyVar_Proofs.
Require Import Verif.Props_Copy.
Import ListNotations.
Open Scope Z_scope.

(** a block contains a copy of the tree [t], ready to be copied again *)
Definition holds (m : mem) (t : term) (s : onesol) : Prop :=
  s_size s = words_of t /\ (nofd t = true /\ arity_ok t = true) /\
  (forall x, s_adr s <= x < s_adr s + s_size s -> m x <> None) /\
  exists ro w1, (forall a b, In a (occs false t) -> In b (occs false t) -> ro a = ro b -> a = b) /\
  forall m2 dst, (forall x, s_adr s <= x < s_adr s + s_size s -> m2 x = m x) ->
  (dst + s_size s <= s_adr s \/ s_adr s + s_size s <= dst) ->
  exists F m3, (forall fuel, (F <= fuel)%nat -> Copy_Contiguous_Term fuel m2 dst (s_adr s) = Ret m3) /\
    copied m2 m3 dst t (fun a => ro a + (dst - s_adr s)) (shiftw (dst - s_adr s) w1).

Lemma holds_agree m m' t s : holds m t s ->
  (forall x, s_adr s <= x < s_adr s + s_size s -> m' x = m x) -> holds m' t s.
Proof.
  intros (E & N & D & ro & w1 & I & K) A. split; [exact E|]. split; [exact N|]. split.
  - intros x R. rewrite A by exact R. auto.
  - exists ro, w1. split; [exact I|]. intros m2 dst A2. apply K.
    intros x R. rewrite A2 by exact R. auto.
Qed.

Lemma den_arity L m : wf L m -> (forall w t, den m w t -> wf_word L m w -> arity_ok t = true) /\
  (forall a ts, den_args m a ts -> forallb arity_ok ts = true).
Proof.
  intros W. apply (den_both m (fun w t _ => wf_word L m w -> arity_ok t = true) (fun a ts _ => forallb arity_ok ts = true)); auto.
  - intros a w t E N D IH _. exact (IH (wf_cell _ _ W _ _ E)).
  - intros b f ts E D IH (g' & k & E' & Nk & _). cbn [arity_ok]. rewrite IH, andb_true_r. rewrite E in E'. injection E' as _ <-.
    destruct (Nat.eqb_spec (length ts) 0); [lia|reflexivity].
  - intros b w t ts E D IHw Ds IH. cbn [forallb]. rewrite IH, andb_true_r. exact (IHw (wf_cell _ _ W _ _ E)).
Qed.

(** blocks do not meet *)
Definition apart (s s' : onesol) : Prop :=
  s_adr s + s_size s <= s_adr s' \/ s_adr s' + s_size s' <= s_adr s.
Fixpoint all_apart (l : list onesol) : Prop :=
  match l with [] => True | s :: l => Forall (apart s) l /\ all_apart l end.

(** a solution has the number of solutions from the first one to it *)
Fixpoint numbered (sol : list onesol) : Prop :=
  match sol with [] => True | s :: r => s_no s = Z.of_nat (length (s :: r)) /\ numbered r end.
Lemma top_numbered sol : numbered sol -> top_no sol = Z.of_nat (length sol).
Proof. destruct sol; cbn [numbered top_no length]; [lia|]. intros (E & _). exact E. Qed.

(** the list being built, the part from p to q of its cells; [h n] where an element is *)
Fixpoint built (m : mem) (p q : addr) (us : list (addr * Z * term)) : Prop :=
  match us with
  | [] => p = q
  | (h, n, u) :: us =>
    m p = Some (Word (REF h)) /\ den (region h (h + n) m) (REF h) u /\ q <= h /\
    (us <> [] -> m (p + 1) = Some (Word (LST (p + 2)))) /\ built m (p + 2) q us
  end.
Lemma built_len m : forall us p q, built m p q us -> q = p + 2 * Z.of_nat (length us).
Proof.
  induction us as [|[[h n] u] us IH]; intros p q B; cbn [built length] in *; [lia|].
  destruct B as (_ & _ & _ & _ & B). apply IH in B. lia.
Qed.
Lemma region_ext lo hi m m' : (forall x, lo <= x < hi -> m' x = m x) -> forall x, region lo hi m' x = region lo hi m x.
Proof.
  intros A x. unfold region. destruct (Z.leb_spec lo x), (Z.ltb_spec x hi); cbn [andb]; auto.
Qed.
Lemma den_ext m m' w t : (forall x, m' x = m x) -> den m w t -> den m' w t.
Proof. intros A. apply (proj1 (den_sub_both m m' ltac:(intros x c E; now rewrite A))). Qed.
Lemma built_agree m m' : forall us p q hi, built m p q us -> Forall (fun x => fst (fst x) + snd (fst x) <= hi) us ->
  (forall x, p <= x < q - 1 -> m' x = m x) -> (forall x, q <= x < hi -> m' x = m x) -> built m' p q us.
Proof.
  induction us as [|[[h n] u] us IH]; intros p q hi B Fo A1 A2; [exact B|].
  pose proof (built_len _ _ _ _ B) as Ln. cbn [length] in Ln.
  cbn [built] in *. destruct B as (B1 & B2 & B3 & B4 & B5). inversion Fo as [|? ? Fh Fo']; subst. cbn [fst snd] in Fh.
  split; [rewrite A1 by lia; exact B1|]. split; [|split; [exact B3|split]].
  - refine (den_ext _ _ _ _ _ B2). apply region_ext. intros x R. apply A2. lia.
  - intros N. rewrite A1; [exact (B4 N)|]. destruct us; [congruence|]. cbn [length] in *. lia.
  - apply (IH (p + 2) _ hi); auto. intros x R. apply A1. lia.
Qed.
Lemma built_den m tail tt : den m tail tt -> forall us p q, built m p q us -> us <> [] ->
  m (q - 1) = Some (Word tail) -> den m (LST p) (list_tail (map snd us) tt).
Proof.
  intros D. induction us as [|[[h n] u] us IH]; intros p q B N E; [congruence|].
  cbn [built map snd list_tail fold_right] in *. destruct B as (B1 & B2 & B3 & B4 & B5).
  apply den_lst. apply dena_cons with (w := REF h); [exact B1| |].
  { refine (proj1 (den_sub_both _ _ _) _ _ B2). intros x c Ex. now apply region_some in Ex. }
  destruct us as [|x us].
  - cbn [built map list_tail fold_right] in *. apply dena_cons with (w := tail); [|exact D|constructor].
    replace (p + 1) with (q - 1) by lia. exact E.
  - apply dena_cons with (w := LST (p + 2)); [apply B4; discriminate| |constructor].
    exact (IH (p + 2) q B5 ltac:(discriminate) E).
Qed.

(** the copies are in separate parts of the heap from lo to hi *)
Fixpoint copies (lo hi : addr) (ts : list term) (us : list (addr * Z * term)) : Prop :=
  match ts, us with
  | [], [] => lo <= hi
  | t :: ts, (h, n, u) :: us => variant t u /\ 0 <= n /\ h + n <= hi /\
      (forall a, In a (occs false u) -> h <= a < h + n) /\ copies lo h ts us
  | _, _ => False
  end.
Lemma copies_le lo : forall ts us hi, copies lo hi ts us -> lo <= hi.
Proof.
  induction ts as [|t ts IH]; intros [|[[h n] u] us] hi C; cbn [copies] in C; try tauto.
  destruct C as (_ & N & B & _ & C). apply IH in C. lia.
Qed.
Lemma copies_in lo : forall ts us hi, copies lo hi ts us ->
  Forall (fun x => lo <= fst (fst x) /\ 0 <= snd (fst x) /\ fst (fst x) + snd (fst x) <= hi /\
    forall a, In a (occs false (snd x)) -> fst (fst x) <= a < fst (fst x) + snd (fst x)) us.
Proof.
  induction ts as [|t ts IH]; intros [|[[h n] u] us] hi C; cbn [copies] in C; try tauto; [constructor|].
  destruct C as (V & A & B & O' & C). pose proof (copies_le _ _ _ _ C). constructor; [cbn [fst snd]; auto|].
  pose proof (IH us h C) as I. rewrite Forall_forall in *. intros x Ix. destruct (I x Ix) as (P1 & P2 & P3 & P4).
  repeat split; auto; try lia; apply P4; auto.
Qed.
Lemma copies_spec lo : forall ts us hi, copies lo hi ts us ->
  Forall2 variant ts (map snd us) /\ ForallOrdPairs no_common_var (map snd us) /\
  Forall (fun u => forall a, In a (occs false u) -> lo <= a < hi) (map snd us).
Proof.
  induction ts as [|t ts IH]; intros [|[[h n] u] us] hi C; cbn [copies] in C; try tauto.
  - cbn. repeat split; constructor.
  - destruct C as (V & A & B & O' & C). pose proof (copies_le _ _ _ _ C). destruct (IH us h C) as (I1 & I2 & I3).
    cbn [map snd]. split; [constructor; auto|]. split; constructor; auto.
    + rewrite Forall_forall in *. intros v Iv a Ia Ia'. specialize (I3 v Iv a Ia'). specialize (O' a Ia). lia.
    + intros a Ia. specialize (O' a Ia). lia.
    + rewrite Forall_forall in *. intros v Iv a Ia. specialize (I3 v Iv a Ia). lia.
Qed.
Lemma occs_ren ro t : occs false (ren ro t) = map ro (occs false t).
Proof.
  induction t as [a|a|d|n|i|f ts IH] using term_ind'; cbn; auto.
  induction IH as [|t ts E _ IH]; cbn; auto. now rewrite map_app, E, IH.
Qed.

(** ** Fuel *)
Lemma size_mono fd m : forall f f', (f <= f')%nat -> forall w r,
  Term_Size fd f m w = Ret r -> Term_Size fd f' m w = Ret r.
Proof.
  induction f as [|f IH]; intros f' Hf w r Q; [discriminate|]. destruct f' as [|f']; [lia|].
  cbn [Term_Size] in *.
  destruct (deref f m w) as [v| |] eqn:E; try discriminate. rewrite (deref_mono _ _ _ _ E ltac:(discriminate) f' ltac:(lia)). cbn [bind] in *.
  assert (K : forall n a x, size_args (Term_Size fd f m) n m a = Ret x -> size_args (Term_Size fd f' m) n m a = Ret x).
  { induction n as [|n IHn]; intros a x; cbn [size_args]; auto.
    destruct (rd_word m a) as [u| |]; cbn [bind]; auto.
    destruct (Term_Size fd f m u) as [y| |] eqn:Ey; try discriminate. rewrite (IH f' ltac:(lia) u y Ey). cbn [bind].
    destruct n; auto. destruct (size_args (Term_Size fd f m) (S n) m (a + 1)) as [z| |] eqn:Ez; try discriminate.
    now rewrite (IHn _ _ Ez). }
  destruct v; auto.
  - destruct (size_args (Term_Size fd f m) 2 m a) as [x| |] eqn:Ex; try discriminate. now rewrite (K _ _ _ Ex).
  - destruct (rd_func m a) as [fn| |]; try discriminate. cbn [bind] in *.
    destruct (size_args (Term_Size fd f m) (snd fn) m (a + 1)) as [x| |] eqn:Ex; try discriminate. now rewrite (K _ _ _ Ex).
Qed.
Lemma cont_mono : forall f f', (f <= f')%nat -> forall m dst src r,
  Copy_Contiguous_Term f m dst src = Ret r -> Copy_Contiguous_Term f' m dst src = Ret r.
Proof.
  induction f as [|f IH]; intros f' Hf m dst src r Q; [discriminate|]. destruct f' as [|f']; [lia|].
  cbn [Copy_Contiguous_Term] in *.
  assert (K : forall n m q a x, copy_cont_args (Copy_Contiguous_Term f) n m q a = Ret x ->
    copy_cont_args (Copy_Contiguous_Term f') n m q a = Ret x).
  { induction n as [|n IHn]; intros m0 q a x; cbn [copy_cont_args]; auto.
    destruct n as [|n]; [apply IH; lia|].
    destruct (Copy_Contiguous_Term f m0 q a) as [m1| |] eqn:E1; try discriminate.
    rewrite (IH f' ltac:(lia) _ _ _ _ E1). cbn [bind]. apply IHn. }
  destruct (rd_word m src) as [v| |]; try discriminate. cbn [bind] in *. destruct v; auto.
  - destruct (src <? a); auto. apply IH; auto; lia.
  - destruct (rd_func _ a) as [fn| |]; try discriminate. cbn [bind] in *. auto.
Qed.
Lemma recover_mono hend : forall n f f', (f <= f')%nat -> forall m H p sol r,
  recover hend n f m H p sol = Ret r -> recover hend n f' m H p sol = Ret r.
Proof.
  induction n as [|n IH]; intros f f' Hf m H p sol r; cbn [recover]; auto.
  destruct sol as [|s sol]; auto. destruct (hend <? H + s_size s); auto.
  match goal with |- context[Copy_Contiguous_Term f ?mm ?d ?a] => destruct (Copy_Contiguous_Term f mm d a) as [m1| |] eqn:E; try discriminate end.
  rewrite (cont_mono f f' Hf _ _ _ _ E). cbn [bind]. apply IH. exact Hf.
Qed.

(** ** The loop *)
Lemma store_eq m a c : store m a c a = Some c.
Proof. unfold store. now rewrite Z.eqb_refl. Qed.
Lemma store_ne m a c x : x <> a -> store m a c x = m x.
Proof. unfold store. destruct (Z.eqb_spec x a); congruence. Qed.
Lemma forget_out a n m x : ~ (a <= x < a + n) -> forget a n m x = m x.
Proof. unfold forget. destruct (Z.leb_spec a x), (Z.ltb_spec x (a + n)); cbn; auto; lia. Qed.

Lemma recover_ok hend q : forall sol1 ts sol2 m H p us ts0,
  Forall2 (holds m) ts sol1 -> all_apart (sol1 ++ sol2) ->
  (forall s x, In s sol1 -> s_adr s <= x < s_adr s + s_size s -> ~ (p - 2 * Z.of_nat (length sol1) <= x < q) /\ ~ (q <= x < hend)) ->
  p <= q -> built m p q us -> copies q H ts0 us -> H <= hend ->
  exists F, if hend <? H + sz ts then forall fuel, (F <= fuel)%nat -> recover hend (length sol1) fuel m H p (sol1 ++ sol2) = Ret None
  else exists m' us', (forall fuel, (F <= fuel)%nat -> recover hend (length sol1) fuel m H p (sol1 ++ sol2) =
        Ret (Some (m', H + sz ts, p - 2 * Z.of_nat (length sol1), sol2))) /\
     built m' (p - 2 * Z.of_nat (length sol1)) q us' /\ copies q (H + sz ts) (rev ts ++ ts0) us' /\
     (forall x, ~ (p - 2 * Z.of_nat (length sol1) <= x < p) -> ~ (H <= x < H + sz ts) -> in_block sol1 x = false -> m' x = m x) /\
     (forall x, in_block sol1 x = true -> m' x = None).
Proof.
  induction sol1 as [|s sol1 IH]; intros ts sol2 m H p us ts0 Hs Ap Dj Pq Bu Co Hh.
  - inversion Hs; subst. exists O. cbn [sz fold_right length recover app rev]. 
    replace (H + 0) with H by lia. replace (p - 2 * Z.of_nat 0) with p by lia.
    destruct (Z.ltb_spec hend H); [lia|]. exists m, us. repeat split; auto. discriminate.
  - inversion Hs as [|t s' ts' sol' Ht Hs' E1 E2]; subst s' sol' ts. cbn [app] in *.
    destruct Ht as (Es & _ & Df & ro & w1 & Ij & K). pose proof (words_pos t) as Wp.
    set (m1 := store (store m (p - 1) (Word (LST p))) (p - 2) (Word (REF H))).
    assert (Ln : Z.of_nat (length (s :: sol1)) = Z.of_nat (length sol1) + 1) by (cbn [length]; lia).
    assert (In_s : In s (s :: sol1)) by (left; reflexivity).
    assert (A1 : forall x, s_adr s <= x < s_adr s + s_size s -> m1 x = m x).
    { intros x R. destruct (Dj s x In_s R) as (D1 & _). unfold m1. rewrite !store_ne by lia. reflexivity. }
    cbn [sz fold_right]. change (fold_right (fun t r => words_of t + r) 0 ts') with (sz ts').
    assert (Sz : 0 <= sz ts') by (clear; induction ts' as [|t ts IH]; cbn; [lia|]; pose proof (words_pos t); fold (sz ts); lia).
    cbn [length recover]. fold m1. rewrite Es.
    destruct (Z.ltb_spec hend (H + words_of t)) as [Lt|Ge].
    { exists O. destruct (Z.ltb_spec hend (H + (words_of t + sz ts'))); [|lia]. intros fuel _. reflexivity. }
    pose proof (copies_le _ _ _ _ Co) as qH.
    assert (Dst : H + s_size s <= s_adr s \/ s_adr s + s_size s <= H).
    { rewrite Es. destruct (Z.le_gt_cases (H + words_of t) (s_adr s)); [left; lia|].
      destruct (Z.le_gt_cases (s_adr s + words_of t) H); [right; lia|]. exfalso.
      destruct (Dj s (Z.max H (s_adr s)) In_s) as (_ & D2); [rewrite Es; lia|]. apply D2. lia. }
    destruct (K m1 H A1 Dst) as (F1 & m3 & C1 & Cp). set (w2 := shiftw (H - s_adr s) w1) in *. clearbody w2. destruct Cp as [Fr Ro De Dd Nw Ij3].
    set (m4 := forget (s_adr s) (s_size s) m3).
    assert (Ap1 : Forall (apart s) (sol1 ++ sol2)) by (apply Ap). assert (Ap2 : all_apart (sol1 ++ sol2)) by (apply Ap).
    assert (Fr4 : forall x, ~ (H <= x < H + words_of t) -> x <> p - 1 -> x <> p - 2 -> ~ (s_adr s <= x < s_adr s + s_size s) -> m4 x = m x).
    { intros x X1 X2 X3 X4. unfold m4. rewrite forget_out by exact X4. rewrite Fr by exact X1. unfold m1. now rewrite !store_ne by lia. }
    set (ro' := fun a => ro a + (H - s_adr s)) in *.
    set (it := (H, words_of t, ren ro' t)).
    assert (Occ : forall a, In a (occs false (ren ro' t)) -> H <= a < H + words_of t).
    { intros a Ia. rewrite occs_ren in Ia. apply in_map_iff in Ia. destruct Ia as (b & <- & Ib). exact (Nw b Ib). }
    specialize (IH ts' sol2 m4 (H + words_of t) (p - 2) (it :: us) (t :: ts0)).
    destruct IH as (F2 & IH).
    + assert (G : forall s', In s' sol1 -> forall x, s_adr s' <= x < s_adr s' + s_size s' -> m4 x = m x).
      { intros s' I' x R. rewrite Forall_forall in Ap1. specialize (Ap1 s' ltac:(apply in_or_app; auto)). unfold apart in Ap1.
        destruct (Dj s' x (or_intror I') R) as (D1 & D2). apply Fr4; try lia. }
      clear - Hs' G. revert G. induction Hs' as [|t0 s0 ts0 l0 Hh _ IHh]; intros G; constructor.
      * refine (holds_agree m m4 t0 s0 Hh _). apply G. now left.
      * apply IHh. intros s' I'. apply G. now right.
    + exact Ap2.
    + intros s' x I' R. destruct (Dj s' x (or_intror I') R) as (D1 & D2). split; [lia|exact D2].
    + lia.
    + assert (Nb : forall x, p - 2 <= x < hend -> ~ (s_adr s <= x < s_adr s + s_size s)).
      { intros x R R'. destruct (Dj s x In_s R') as (D1 & D2). lia. }
      unfold it. cbn [built]. split; [|split; [|split; [lia|split]]].
      * unfold m4. rewrite forget_out by (apply Nb; lia). rewrite Fr by lia. apply store_eq.
      * assert (Dr : den (region H (H + words_of t) m3) (REF H) (ren ro' t)).
        { assert (Er : region H (H + words_of t) m3 H = Some (Word w2)).
          { unfold region. destruct (Z.leb_spec H H), (Z.ltb_spec H (H + words_of t)); cbn [andb]; try lia. exact Ro. }
          destruct (word_eqb w2 (REF H)) eqn:Ew.
          - apply word_eqb_eq in Ew. rewrite <- Ew. exact De.
          - apply den_ref with (w := w2); auto. intros X. subst w2. cbn in Ew. now rewrite Z.eqb_refl in Ew. }
        refine (den_ext _ _ _ _ _ Dr). apply region_ext. intros x R. unfold m4. apply forget_out. apply Nb. lia.
      * intros Nu. replace (p - 2 + 1) with (p - 1) by lia. replace (p - 2 + 2) with p by lia.
        unfold m4. rewrite forget_out by (apply Nb; lia). rewrite Fr by lia. unfold m1. rewrite store_ne by lia. apply store_eq.
      * replace (p - 2 + 2) with p by lia. pose proof (copies_in _ _ _ _ Co) as Ci.
        apply (built_agree m m4 us p q H Bu).
        -- rewrite Forall_forall in *. intros x Ix. destruct (Ci x Ix) as (_ & _ & X & _). exact X.
        -- intros x R. apply Fr4; try lia. apply Nb. lia.
        -- intros x R. apply Fr4; try lia. apply Nb. lia.
    + unfold it. cbn [copies]. split; [|split; [lia|split; [lia|split; [exact Occ|exact Co]]]].
      exists ro'. split; [reflexivity|]. intros a b Ia Ib E. apply Ij; auto. unfold ro' in E. lia.
    + lia.
    + exists (Nat.max F1 F2). rewrite Z.add_assoc.
      assert (Dq : forall fuel, (Nat.max F1 F2 <= fuel)%nat -> Copy_Contiguous_Term fuel m1 H (s_adr s) = Ret m3) by (intros; apply C1; lia).
      destruct (Z.ltb_spec hend (H + words_of t + sz ts')) as [Lt|Ge2].
      * intros fuel Hf. rewrite (Dq fuel Hf). cbn [bind]. rewrite <- Es. fold m4. rewrite Es. apply IH. lia.
      * destruct IH as (m' & us' & R1 & R2 & R3 & R4 & R5). exists m', us'.
        replace (p - 2 - 2 * Z.of_nat (length sol1)) with (p - 2 * Z.of_nat (S (length sol1))) in * by lia.
        split; [|split; [exact R2|split; [|split]]].
        -- intros fuel Hf. rewrite (Dq fuel Hf). cbn [bind]. rewrite <- Es. fold m4. rewrite Es. apply R1. lia.
        -- cbn [rev]. rewrite <- app_assoc. exact R3.
        -- intros x X1 X2 X3. cbn [in_block existsb] in X3. apply orb_false_iff in X3. destruct X3 as (X3 & X4).
           rewrite R4; [|lia|lia|exact X4].
           destruct (Z.leb_spec (s_adr s) x), (Z.ltb_spec x (s_adr s + s_size s)); cbn [andb] in X3; try discriminate; apply Fr4; lia.
        -- intros x X. cbn [in_block existsb] in X. apply orb_true_iff in X.
           destruct (in_block sol1 x) eqn:X4; [now apply R5|]. destruct X as [X|X]; [|unfold in_block in X4; congruence].
           assert (Rx : s_adr s <= x < s_adr s + s_size s) by lia.
           destruct (Dj s x In_s Rx) as (D1 & D2). rewrite R4; [|lia|lia|exact X4].
           unfold m4, forget. now rewrite X.
Qed.

(** ** The whole execution *)
Definition flat (lv : collected) : list term := concat (map (@rev term) lv).
Fixpoint marks_ok (mk : list Z) (lv : collected) : Prop :=
  match mk, lv with
  | [], [_] => True
  | k :: mk, _ :: lv => k = Z.of_nat (length (flat lv)) /\ marks_ok mk lv
  | _, _ => False
  end.
Record inv (s : fs) (lv : collected) : Prop := Inv {
  i_holds : Forall2 (holds (f_m s)) (flat lv) (f_sol s);
  i_apart : all_apart (f_sol s);
  i_num : numbered (f_sol s);
  i_marks : marks_ok (f_marks s) lv }.

Lemma marks_len : forall mk lv, marks_ok mk lv -> length lv = S (length mk).
Proof.
  induction mk as [|k mk IH]; intros [|c lv]; cbn [marks_ok length]; try tauto; [destruct lv; tauto|].
  intros (_ & M). apply IH in M. lia.
Qed.
Lemma flat_merge lv : flat (merge lv) = flat lv.
Proof.
  destruct lv as [|c [|d lv]]; auto. unfold flat. cbn [merge map concat]. now rewrite rev_app_distr, app_assoc.
Qed.
Lemma flat_merges n lv : flat (Nat.iter n merge lv) = flat lv.
Proof. induction n as [|n IH]; cbn; auto. change (flat (merge (Nat.iter n merge lv)) = flat lv). rewrite flat_merge. exact IH. Qed.
Lemma iter_comm {A} (f : A -> A) n x : f (Nat.iter n f x) = Nat.iter n f (f x).
Proof. induction n as [|n IH]; cbn; auto. f_equal. exact IH. Qed.
Lemma marks_merges : forall n mk lv, (n <= length mk)%nat -> marks_ok mk lv -> marks_ok (skipn n mk) (Nat.iter n merge lv).
Proof.
  induction n as [|n IH]; intros mk lv Le M; [exact M|].
  destruct mk as [|k mk]; [cbn in Le; lia|]. cbn [skipn]. cbn [Nat.iter].
  change (marks_ok (skipn n mk) (merge (Nat.iter n merge lv))). rewrite iter_comm. apply IH; [cbn in Le; lia|].
  destruct lv as [|c lv]; [destruct M|]. cbn [marks_ok] in M. destruct M as (_ & M).
  pose proof (marks_len _ _ M) as Ln. destruct lv as [|d lv]; [discriminate|]. cbn [merge].
  destruct mk; cbn [marks_ok] in *; auto.
Qed.
Lemma Forall2_split {A B} (R : A -> B -> Prop) l1 l2 r : Forall2 R (l1 ++ l2) r ->
  exists r1 r2, r = r1 ++ r2 /\ Forall2 R l1 r1 /\ Forall2 R l2 r2.
Proof.
  intros H. apply Forall2_app_inv_l in H. destruct H as (r1 & r2 & A1 & A2 & ->). eauto.
Qed.
Lemma Forall2_length {A B} (R : A -> B -> Prop) l r : Forall2 R l r -> length l = length r.
Proof. induction 1; cbn; auto. Qed.
Lemma apart_app l r : all_apart (l ++ r) -> all_apart r.
Proof. induction l as [|s l IH]; cbn [app all_apart]; auto. intros (_ & A). auto. Qed.
Lemma num_app l r : numbered (l ++ r) -> numbered r.
Proof. induction l as [|s l IH]; cbn [app numbered]; auto. intros (_ & A). auto. Qed.
Lemma in_block_in sol x : in_block sol x = true <-> exists s, In s sol /\ s_adr s <= x < s_adr s + s_size s.
Proof.
  unfold in_block. rewrite existsb_exists. split; intros (s & I & R); exists s; split; auto; lia.
Qed.
Lemma in_block_app l r x : in_block (l ++ r) x = in_block l x || in_block r x.
Proof. apply existsb_app. Qed.
Lemma holds_def m : forall ts sol, Forall2 (holds m) ts sol -> forall x, in_block sol x = true -> m x <> None.
Proof.
  induction 1 as [|t s ts sol Hh _ IH]; intros x; [discriminate|]. cbn [in_block existsb]. intros B. apply orb_true_iff in B.
  destruct B as [B|B]; [|now apply IH]. destruct Hh as (_ & _ & D & _). apply D. lia.
Qed.
Lemma sz_cons t ts : sz (t :: ts) = words_of t + sz ts.
Proof. reflexivity. Qed.
Lemma sz_app a b : sz (a ++ b) = sz a + sz b.
Proof. induction a as [|t a IH]; [reflexivity|]. cbn [app]. rewrite !sz_cons. lia. Qed.
Lemma sz_rev ts : sz (rev ts) = sz ts.
Proof. induction ts as [|t ts IH]; [reflexivity|]. cbn [rev]. rewrite sz_app, !sz_cons. change (sz []) with 0. lia. Qed.
Lemma sz_pos ts : 0 <= sz ts.
Proof. induction ts as [|t ts IH]; [cbn; lia|]. pose proof (words_pos t). rewrite sz_cons. lia. Qed.
Lemma apart_out : forall l r x, all_apart (l ++ r) -> in_block l x = true -> in_block r x = false.
Proof.
  induction l as [|s l IH]; intros r x A B; [discriminate|]. cbn [app all_apart in_block existsb] in *. destruct A as (A1 & A2).
  apply orb_true_iff in B. destruct B as [B|B]; [|now apply IH].
  destruct (in_block r x) eqn:E; auto. apply in_block_in in E. destruct E as (s' & I & R). rewrite Forall_forall in A1.
  specialize (A1 s' ltac:(apply in_or_app; auto)). unfold apart in A1. lia.
Qed.

Lemma Recover_ok hend s c lv stop mk tail tt : inv s (c :: lv) -> f_marks s = stop :: mk ->
  (forall x, f_H s <= x < hend -> f_m s x = None) -> f_H s <= hend ->
  den (visible (f_m s) (f_sol s)) tail tt ->
  exists F r, (forall fuel, (F <= fuel)%nat -> Recover_Solutions hend fuel (f_m s) (f_H s) (f_sol s) stop tail = Ret r) /\
  match r with
  | None => hend < f_H s + need c
  | Some (m', H', w, sol') => H' = f_H s + need c /\ H' <= hend /\
      inv (Fs m' H' sol' mk) lv /\
      (exists us, den (visible m' sol') w (list_tail us tt) /\ Forall2 variant c us /\ ForallOrdPairs no_common_var us /\
         Forall (fun u => forall a, In a (occs false u) -> f_H s <= a < H') us) /\
      (forall x, ~ (f_H s <= x < H') -> in_block (f_sol s) x = false -> m' x = f_m s x)
  end.
Proof.
  destruct s as [m H sol mks]. cbn [f_m f_H f_sol f_marks]. intros [Ho Ap Nu Mk] Em Fr Hh Dt. cbn [f_m f_H f_sol f_marks] in *.
  subst mks. cbn [marks_ok] in Mk. destruct Mk as (-> & Mk).
  unfold flat in Ho. cbn [map concat] in Ho. fold (flat lv) in Ho.
  destruct (Forall2_split _ _ _ _ Ho) as (sol1 & sol2 & -> & H1 & H2).
  pose proof (Forall2_length _ _ _ H1) as L1. pose proof (Forall2_length _ _ _ H2) as L2. rewrite rev_length in L1.
  unfold Recover_Solutions. rewrite (top_numbered _ Nu), app_length, Nat2Z.inj_add.
  replace (Z.of_nat (length sol1) + Z.of_nat (length sol2) - Z.of_nat (length (flat lv))) with (Z.of_nat (length sol1)) by lia.
  assert (Dv : forall x, in_block (sol1 ++ sol2) x = true -> ~ (H <= x < hend)).
  { intros x B R. exact (holds_def _ _ _ Ho x B (Fr x R)). }
  destruct (Z.eqb_spec (Z.of_nat (length sol1)) 0) as [Z0|N0].
  - exists O. eexists. split; [intros; reflexivity|]. destruct sol1; [|cbn in Z0; lia]. destruct c; [|discriminate].
    unfold need. cbn [length Nat.eqb app] in *. split; [lia|]. split; [lia|]. split; [|split].
    + constructor; cbn [f_m f_H f_sol f_marks]; auto.
    + exists []. cbn [list_tail fold_right]. repeat split; try constructor. exact Dt.
    + auto.
  - destruct (Z.ltb_spec (Z.of_nat (length sol1)) 0); [lia|].
    assert (Nd : need c = 2 * Z.of_nat (length sol1) + sz c).
    { unfold need. rewrite L1. destruct (Nat.eqb_spec (length sol1) 0); [lia|reflexivity]. }
    pose proof (sz_pos c) as Sp.
    destruct (Z.ltb_spec hend (H + 2 * Z.of_nat (length sol1))) as [Lt|Ge].
    { exists O. eexists. split; [intros; reflexivity|]. cbn. lia. }
    set (q := H + 2 * Z.of_nat (length sol1)) in *. rewrite Nat2Z.id.
    destruct (recover_ok hend q sol1 (rev c) sol2 m q q [] [] H1 Ap) as (F & R); auto.
    { intros s x I R. assert (B : in_block (sol1 ++ sol2) x = true).
      { apply in_block_in. exists s. split; [apply in_or_app; auto|exact R]. }
      specialize (Dv x B). split; [|lia]. unfold q. lia. }
    { lia. } { reflexivity. } { cbn [copies]. lia. }
    rewrite sz_rev in R. exists F. destruct (Z.ltb_spec hend (q + sz c)) as [Lt|Ge2].
    { exists None. split; [|lia]. intros fuel Hf. rewrite (R fuel Hf). reflexivity. }
    destruct R as (m' & us & R1 & R2 & R3 & R4 & R5). replace (q - 2 * Z.of_nat (length sol1)) with H in * by lia.
    exists (Some (store m' (q - 1) (Word tail), q + sz c, LST H, sol2)).
    split. { intros fuel Hf. rewrite (R1 fuel Hf). reflexivity. }
    split; [lia|]. split; [lia|]. rewrite rev_involutive, app_nil_r in R3.
    destruct (copies_spec _ _ _ _ R3) as (S1 & S2 & S3).
    set (m'' := store m' (q - 1) (Word tail)).
    assert (Out : forall x, ~ (H <= x < q + sz c) -> in_block sol1 x = false -> m'' x = m x).
    { intros x X1 X2. unfold m''. rewrite store_ne by lia. apply R4; auto; lia. }
    split; [|split].
    + constructor; cbn [f_m f_H f_sol f_marks].
      * assert (G : forall s', In s' sol2 -> forall x, s_adr s' <= x < s_adr s' + s_size s' -> m'' x = m x).
        { intros s' I x Rx. assert (B : in_block sol2 x = true) by (apply in_block_in; eauto).
          assert (B' : in_block (sol1 ++ sol2) x = true) by (rewrite in_block_app, B; apply orb_true_r).
          apply Out; [specialize (Dv x B'); lia|].
          destruct (in_block sol1 x) eqn:E; auto. rewrite (apart_out sol1 sol2 x Ap E) in B. discriminate. }
        clear - H2 G. induction H2 as [|t s ts l Hh _ IH]; constructor.
        -- refine (holds_agree m m'' t s Hh _). apply G. now left.
        -- apply IH. intros s' I. apply G. now right.
      * exact (apart_app _ _ Ap).
      * exact (num_app _ _ Nu).
      * exact Mk.
    + exists (map snd us). split; [|split; [exact S1|split; [exact S2|]]].
      * (* the list is outside the remaining blocks *)
        assert (Vis : forall x c, visible m (sol1 ++ sol2) x = Some c -> visible m'' sol2 x = Some c).
        { intros x c0 V. unfold visible in *. rewrite in_block_app in V.
          destruct (in_block sol1 x) eqn:B1; cbn [orb] in V; [discriminate|]. destruct (in_block sol2 x); [discriminate|].
          rewrite Out; auto. intros X. rewrite Fr in V by lia. discriminate. }
        assert (Hp : forall x, H <= x < q + sz c -> visible m'' sol2 x = m'' x).
        { intros x X. unfold visible. destruct (in_block sol2 x) eqn:B; auto.
          assert (B' : in_block (sol1 ++ sol2) x = true) by (rewrite in_block_app, B; apply orb_true_r).
          exfalso. apply (Dv x B'). lia. }
        assert (Ln : (length us = length sol1)%nat).
        { pose proof (built_len _ _ _ _ R2). lia. }
        apply (built_den _ tail tt) with (q := q).
        -- refine (proj1 (den_sub_both _ _ _) _ _ Dt). exact Vis.
        -- pose proof (copies_in _ _ _ _ R3) as Ci.
           apply (built_agree m' _ us H q (q + sz c) R2).
           ++ rewrite Forall_forall in *. intros x Ix. destruct (Ci x Ix) as (_ & _ & X & _). exact X.
           ++ intros x X. rewrite Hp by lia. unfold m''. apply store_ne. lia.
           ++ intros x X. rewrite Hp by lia. unfold m''. apply store_ne. lia.
        -- intros X. rewrite X in Ln. cbn in Ln. lia.
        -- rewrite Hp by lia. apply store_eq.
      * rewrite Forall_forall in *. intros u I a Ia. specialize (S3 u I a Ia). lia.
    + intros x X1 X2. rewrite in_block_app in X2. apply orb_false_iff in X2. destruct X2 as (X2 & _). apply Out; auto.
Qed.

Lemma Recover_mono hend m H sol stop tail f f' r : (f <= f')%nat ->
  Recover_Solutions hend f m H sol stop tail = Ret r -> Recover_Solutions hend f' m H sol stop tail = Ret r.
Proof.
  intros Hf. unfold Recover_Solutions. destruct (_ =? 0); auto. destruct (_ <? 0); auto. destruct (hend <? _); auto.
  destruct (recover hend _ f m _ _ sol) as [x| |] eqn:E; try discriminate. now rewrite (recover_mono hend _ f f' Hf _ _ _ _ _ E).
Qed.

Lemma store_inv L fd lim fuel m H sol mk w a t m' sol' lv : inv (Fs m H sol mk) lv -> mk <> [] ->
  wf L m -> wf_word L m w -> den m w t -> nofd t = true -> (forall x, a <= x < a + words_of t -> m x = None) ->
  Store_Solution fd lim fuel m sol w a = Ret (BRet (m', sol')) ->
  inv (Fs m' H sol' mk) (ideal_step lv (ESol w a t)).
Proof.
  intros [Ho Ap Nu Mk] Mn W Ww D Nf Fr Q. cbn [f_m f_H f_sol f_marks] in *. unfold Store_Solution in Q.
  destruct (Term_Size fd fuel m w) as [size| |] eqn:Es; try discriminate. cbn [bind] in Q.
  destruct (Copy_Term lim fuel m a w) as [r| |] eqn:Ec; try discriminate. cbn [bind] in Q.
  destruct r as [m1| |]; try discriminate. destruct (top_no sol + 1 <? 2 ^ 31); [|discriminate].
  injection Q as <- <-.
  assert (size = words_of t) as ->.
  { destruct (C14_term_size L m fd w t W Ww D Nf) as (F & K).
    pose proof (size_mono fd m fuel (F + fuel) ltac:(lia) w size Es) as E1. rewrite K in E1 by lia. congruence. }
  destruct (C48_contiguous_copy L m lim a w t m1 fuel W Ww D Nf Fr Ec) as (ro & w1 & Cp & K).
  destruct Cp as [Cf Cr Cd Cf' Cn Ci].
  destruct lv as [|c lv]; [destruct mk; destruct Mk|]. cbn [ideal_step].
  constructor; cbn [f_m f_H f_sol f_marks].
  - unfold flat. cbn [map concat]. rewrite rev_app_distr. cbn [rev app]. constructor.
    + split; [reflexivity|]. split; [split; [exact Nf|exact (proj1 (den_arity L m W) _ _ D Ww)]|]. cbn [s_adr s_size]. split; [exact Cf'|]. exists ro, w1. split; [exact Ci|].
      intros m2 dst A1 A2. destruct (K m2 dst A1 A2) as (F & m3 & K1 & K2 & _). exists F, m3. split; [exact K1|exact K2].
    + assert (G : forall s', In s' sol -> forall x, s_adr s' <= x < s_adr s' + s_size s' -> m1 x = m x).
      { intros s' I x R. apply Cf. intros X. assert (B : in_block sol x = true) by (apply in_block_in; eauto).
        exact (holds_def _ _ _ Ho x B (Fr x X)). }
      change (concat (map (@rev term) lv)) with (flat lv). change (Forall2 (holds m) (rev c ++ flat lv) sol) in Ho.
      clear - Ho G. induction Ho as [|t s ts l Hh _ IH]; constructor.
      * refine (holds_agree m m1 t s Hh _). apply G. now left.
      * apply IH. intros s' I. apply G. now right.
  - cbn [all_apart]. split; [|exact Ap]. rewrite Forall_forall. intros s' I. unfold apart. cbn [s_adr s_size].
    destruct (Z.le_gt_cases (a + words_of t) (s_adr s')); [left; lia|].
    destruct (Z.le_gt_cases (s_adr s' + s_size s') a); [right; lia|]. exfalso.
    assert (Sz1 : 0 < s_size s').
    { clear - Ho I. induction Ho as [|t s ts l Hh _ IH]; [destruct I|]. destruct I as [->|I]; [|auto].
      destruct Hh as (-> & _). pose proof (words_pos t). lia. }
    assert (B : in_block sol (Z.max a (s_adr s')) = true) by (apply in_block_in; exists s'; split; [exact I|lia]).
    pose proof (words_pos t). refine (holds_def _ _ _ Ho _ B (Fr (Z.max a (s_adr s')) _)). lia.
  - cbn [numbered s_no length]. split; [|exact Nu]. rewrite (top_numbered _ Nu). lia.
  - destruct mk as [|k mk]; [congruence|]. exact Mk.
Qed.

