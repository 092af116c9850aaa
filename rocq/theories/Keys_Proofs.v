(** What Pl_Recover_Solutions_4 builds for bagof/3. *)
Require Import ZArith List Bool Lia.
Require Import Verif.Term_Model Verif.Heap_Model Verif.Unify_Model Verif.Unify_Spec Verif.Term_Proofs Verif.Heap_Proofs.
Require Import Verif.Copy_Model Verif.Copy_Spec Verif.Copy_Proofs Verif.Copy_Proofs2 Verif.Copy_Proofs3 Verif.Findall_Model Verif.Findall_Spec.
Require Import Verif.KeyVar_Model Verif.KeyVar_Spec Verif.KeyVar_Proofs Verif.Findall_Proofs.
Import ListNotations.
Open Scope Z_scope.

(** ** The copies *)
Lemma key_ren f t : is_pair t -> key_of (ren f t) = ren f (key_of t).
Proof. intros (g & k & ts & -> & _). reflexivity. Qed.
Lemma key_occs t x : In x (occs false (key_of t)) -> In x (occs false t).
Proof. destruct t as [| | | | |f [|k ts]]; auto. cbn [key_of occs flat_map]. intros I. apply in_or_app. auto. Qed.

(** undoing a renaming *)
Lemma unren f g B : (forall a b, In a B -> In b B -> g a = g b -> a = b) -> forall s t, incl (occs false t) B -> ren f s = ren g t ->
  t = ren (fun x => match find (fun y => g y =? f x) B with Some y => y | None => x end) s.
Proof.
  intros Ij. induction s as [a|a|d|n|i|h ss IH] using term_ind'; intros t In_ E; destruct t as [b|b|d'|n'|i'|h' ts]; try discriminate; cbn [ren] in *;
    try (injection E as <-; reflexivity).
  - injection E as E. f_equal. assert (Ib : In b B) by (apply In_; now left).
    destruct (find _ B) as [y|] eqn:Fy.
    + apply find_some in Fy. destruct Fy as (Iy & Ey). apply Z.eqb_eq in Ey. apply Ij; auto. congruence.
    + apply (find_none _ _ Fy) in Ib. rewrite E, Z.eqb_refl in Ib. discriminate.
  - injection E as <- E. f_equal. cbn [occs] in In_. revert ts In_ E. induction IH as [|s ss Hs _ IHs]; intros [|t ts] In_ E; cbn [map] in *; try discriminate; auto.
    injection E as E1 E2. cbn [flat_map] in In_. f_equal.
    + apply Hs; auto. intros x I. apply In_, in_or_app. auto.
    + apply IHs; auto. intros x I. apply In_, in_or_app. auto.
Qed.
Lemma occs_len f g s t : ren f s = ren g t -> map f (occs false s) = map g (occs false t).
Proof. intros E. rewrite <- !occs_ren. now rewrite E. Qed.
Lemma ren_variant f g s t : (forall a b, In a (occs false s) -> In b (occs false s) -> f a = f b -> a = b) ->
  (forall a b, In a (occs false t) -> In b (occs false t) -> g a = g b -> a = b) -> ren f s = ren g t -> variant s t.
Proof.
  intros If Ig E. exists (fun x => match find (fun y => g y =? f x) (occs false t) with Some y => y | None => x end).
  split; [apply (unren f g (occs false t) Ig s t (incl_refl _) E)|].
  pose proof (occs_len _ _ _ _ E) as Eo.
  assert (Q : forall a, In a (occs false s) -> exists y, find (fun y => g y =? f a) (occs false t) = Some y /\ g y = f a).
  { intros a Ia. apply (in_map f) in Ia. rewrite Eo in Ia. apply in_map_iff in Ia. destruct Ia as (y & Ey & Iy).
    destruct (find (fun y => g y =? f a) (occs false t)) as [z|] eqn:Fz.
    - exists z. split; auto. apply find_some in Fz. now apply Z.eqb_eq.
    - apply (find_none _ _ Fz) in Iy. rewrite Ey, Z.eqb_refl in Iy. discriminate. }
  intros a b Ia Ib. destruct (Q a Ia) as (y & -> & Ey), (Q b Ib) as (z & -> & Ez). intros ->. apply If; auto. congruence.
Qed.

(** keys are the same if and only if they were variants *)
Lemma linked_keys V t1 u1 t2 u2 : is_pair t1 -> is_pair t2 -> linked V t1 u1 -> linked V t2 u2 ->
  key_of u1 = key_of u2 <-> variant (key_of t1) (key_of t2).
Proof.
  intros P1 P2 (r1 & x1 & -> & I1 & F1 & N1 & _) (r2 & x2 & -> & I2 & F2 & N2 & _). rewrite !key_ren by assumption. split.
  - apply ren_variant; intros a b Ia Ib; [apply I1|apply I2]; now apply key_occs.
  - intros (ro & E & Ij). assert (X2 : x2 = map ro x1).
    { apply (first_occ_fun _ _ F2). rewrite E, occs_ren. apply first_occ_map; auto. }
    rewrite E, ren_ren. apply ren_ext. intros a Ia. apply (first_occ_In _ _ F1) in Ia. apply In_nth_error in Ia. destruct Ia as (j & Ej).
    pose proof (N1 j a Ej) as Q1. assert (Ej2 : nth_error x2 j = Some (ro a)) by (rewrite X2; now apply map_nth_error).
    pose proof (N2 j (ro a) Ej2) as Q2. congruence.
Qed.
Lemma linked_variant V t u : linked V t u -> variant t u.
Proof. intros (ro & xs & E & I & _). exists ro. auto. Qed.
Lemma linked_app V W lo hi t u : linked V t u -> (forall a, In a (occs false u) -> lo <= a < hi) ->
  (forall a, In a W -> hi <= a) -> linked (V ++ W) t u.
Proof.
  intros (ro & xs & -> & I & F & N & O) R Rw. exists ro, xs. repeat split; auto.
  - intros j x E. specialize (N j x E). rewrite nth_error_app1; auto. apply nth_error_Some. congruence.
  - intros x Ix Iv. apply O; auto. apply in_app_or in Iv. destruct Iv as [Iv|Iv]; auto. exfalso.
    specialize (Rw _ Iv). specialize (R (ro x)). rewrite occs_ren in R. specialize (R (in_map ro _ _ Ix)). lia.
Qed.

(** ** One key *)

(** the heap from lo to hi without and with the links *)
Lemma over_region lo hi m0 vars sg m : over m0 vars sg m -> (forall x, sg x <> x -> lo <= x < hi) ->
  (forall v, In v vars -> lo <= v < hi) -> over (region lo hi m0) vars sg (region lo hi m).
Proof.
  intros [A B C] Rs Rv. constructor.
  - intros x. unfold region. destruct (Z.leb_spec lo x), (Z.ltb_spec x hi); cbn [andb]; auto;
      destruct (Z.eqb_spec (sg x) x) as [E|E]; auto; specialize (Rs x E); lia.
  - intros x Nx. destruct (B x Nx) as (E & I). split; auto. rewrite region_in; auto.
  - intros v I. destruct (C v I) as (E & S1). split; auto. rewrite region_in; auto.
Qed.
Lemma ren_id f t : (forall a, In a (occs false t) -> f a = a) -> ren f t = t.
Proof.
  intros E. rewrite (ren_ext f (fun a => a) t E). clear E. induction t as [a|a|d|n|i|h ts IH] using term_ind'; cbn [ren]; auto.
  f_equal. induction IH as [|t ts Ht _ IHt]; cbn [map]; auto. now rewrite Ht, IHt.
Qed.

Lemma handle_ok lim m vars w t lo hi : is_pair t -> arity_ok t = true -> nofd t = true ->
  den (region lo hi m) w t -> (length vars <= lim)%nat ->
  (forall v, In v vars -> m v = Some (Word (REF v)) /\ ~ In v (occs false t)) ->
  (forall a, In a (occs false t) -> lo <= a < hi) ->
  exists F r, (forall fuel, (F <= fuel)%nat -> Handle_Key_Variables lim fuel m vars w = Ret r) /\
  match r with
  | Go k => exists xs sg, first_occ (occs false (key_of t)) xs /\ (length xs <= lim)%nat /\
      k_vars k = vars ++ skipn (length vars) xs /\ over m (k_vars k) sg (k_m k) /\
      (forall j x, nth_error xs j = Some x -> nth_error (k_vars k) j = Some (sg x)) /\
      (forall x, ~ In x xs -> sg x = x)
  | _ => exists xs, first_occ (occs false (key_of t)) xs /\ (lim < length xs)%nat
  end.
Proof.
  intros (f & k & ts & -> & Nd) Ao Nf D Lv Va Oc.
  assert (Sb : sub (region lo hi m) m) by (intros x c E; now apply region_some in E).
  pose proof (proj1 (den_sub_both _ _ Sb) _ _ D) as Dm.
  destruct (den_derefs _ _ _ Dm) as (w' & Dw & D'). destruct (derefs_fun _ _ _ Dw) as (F0 & K0).
  assert (exists a kw, w' = STC a /\ m (a + 1) = Some (Word kw) /\ den m kw k) as (a & kw & -> & Ek & Dk).
  { assert (Sf : forall a, w' = REF a -> m a = Some (Word (REF a))).
    { clear - Dw. induction Dw; intros b E; [congruence|auto|congruence]. }
    clear - D' Nd Sf. inversion D' as [|a0 w0 t0 E0 N0 D0| | | | |a0 t1 t2 D0|a0 f0 ts0 E0 D0]; subst; [|congruence|].
    - rewrite (Sf a0 eq_refl) in E0. congruence.
    - inversion D0; subst. eauto 6. }
  cbn [key_of] in *. destruct (first_occ_ex (occs false k)) as (xs & Fo).
  assert (Ok0 : okq (length vars) m (vars, O, fun x => x) m).
  { split; cbn [fst snd]; [|lia]. constructor; [intros x; now rewrite Z.eqb_refl|congruence|]. intros v I. split; auto. apply (Va v I). }
  cbn [arity_ok nofd forallb] in Ao, Nf. apply andb_true_iff in Ao, Nf. destruct Ao as (_ & Ao), Nf as (Nf & _). apply andb_true_iff in Ao. destruct Ao as (Ao & _).
  destruct (proj1 (Link_both lim (length vars) m) kw k Dk Ao Nf vars O (fun x => x) m Ok0) as (F1 & r & K1 & Hr).
  pose proof (absorb_all lim vars Lv (occs false k) xs Fo) as Ab.
  assert (Nv : forall x, In x (occs false k) -> ~ In x vars).
  { intros x I Iv. apply (Va x Iv). cbn [occs flat_map]. apply in_or_app. auto. }
  specialize (Ab Nv). unfold lst in *.
  exists (F0 + F1)%nat, r. split.
  { intros fuel Lf. unfold Handle_Key_Variables. rewrite K0 by lia. cbn [bind]. unfold rd_word. rewrite Ek. cbn [bind]. apply K1. lia. }
  unfold result in Hr. destruct (fold_left _ _ _) as [[[vars' next'] sg']|].
  - destruct Hr as (m' & -> & Ov & _). destruct Ab as (A1 & A2 & A3 & A4 & A5). exists xs, sg'. cbn [k_vars k_m fst snd] in *. repeat (split; auto).
  - destruct Hr as (s & ->). exists xs. auto.
Qed.

(** ** The list *)
Fixpoint cells (m : mem) (p q : addr) (hs : list addr) : Prop :=
  match hs with
  | [] => p = q
  | h :: hs => m p = Some (Word (REF h)) /\ (hs <> [] -> m (p + 1) = Some (Word (LST (p + 2)))) /\ cells m (p + 2) q hs
  end.
Lemma cells_len m : forall hs p q, cells m p q hs -> q = p + 2 * Z.of_nat (length hs).
Proof.
  induction hs as [|h hs IH]; intros p q B; cbn [cells length] in *; [lia|].
  destruct B as (_ & _ & B). apply IH in B. lia.
Qed.
Lemma cells_agree m m' : forall hs p q, cells m p q hs -> (forall x, p <= x < q - 1 -> m' x = m x) -> cells m' p q hs.
Proof.
  induction hs as [|h hs IH]; intros p q B A; [exact B|]. pose proof (cells_len _ _ _ _ B) as Ln. cbn [length] in Ln.
  cbn [cells] in *. destruct B as (B1 & B2 & B3). split; [rewrite A by lia; exact B1|]. split.
  - intros N. rewrite A; [exact (B2 N)|]. destruct hs; [congruence|]. cbn [length] in *. lia.
  - apply IH; auto. intros x R. apply A. lia.
Qed.
Lemma cells_den m tail tt : den m tail tt -> forall hs us p q, cells m p q hs -> Forall2 (fun h u => den m (REF h) u) hs us -> hs <> [] ->
  m (q - 1) = Some (Word tail) -> den m (LST p) (list_tail us tt).
Proof.
  intros D. induction hs as [|h hs IH]; intros us p q B Fu N E; [congruence|].
  inversion Fu as [|? u ? us' Du Fu']; subst. cbn [cells list_tail fold_right] in *. destruct B as (B1 & B2 & B3).
  apply den_lst. apply dena_cons with (w := REF h); [exact B1|exact Du|].
  destruct hs as [|x hs].
  - inversion Fu'; subst. cbn [cells list_tail fold_right] in *. apply dena_cons with (w := tail); [|exact D|constructor].
    replace (p + 1) with (q - 1) by lia. exact E.
  - apply dena_cons with (w := LST (p + 2)); [apply B2; discriminate| |constructor].
    exact (IH us' (p + 2) q B3 Fu' ltac:(discriminate) E).
Qed.

Record state (lim : nat) (q : addr) (m : mem) (H p : addr) (V : list addr) (ts : list term) (hs : list addr) (us : list term) : Prop := State {
  k_cells : cells m p q hs;
  k_den : Forall2 (fun h u => den (region q H m) (REF h) u) hs us;
  k_occ : Forall (fun u => forall a, In a (occs false u) -> q <= a < H) us;
  k_link : Forall2 (linked V) ts us;
  k_com : ForallOrdPairs (only_common V) us;
  k_nd : NoDup V;
  k_V : forall v, In v V -> q <= v < H /\ m v = Some (Word (REF v));
  k_lim : (length V <= lim)%nat;
  k_qH : q <= H }.

Lemma NoDup_app' {A} (l r : list A) : NoDup l -> NoDup r -> (forall x, In x l -> ~ In x r) -> NoDup (l ++ r).
Proof.
  induction 1 as [|x l Nx Nl IH]; intros Nr D; cbn; auto. constructor.
  - rewrite in_app_iff. intros [I|I]; [auto|exact (D x (or_introl eq_refl) I)].
  - apply IH; auto. intros y I. apply D. now right.
Qed.
Lemma skipn_in {A} n (l : list A) x : In x (skipn n l) -> In x l.
Proof. intros I. rewrite <- (firstn_skipn n l). apply in_or_app. auto. Qed.
Lemma skipn_NoDup {A} n (l : list A) : NoDup l -> NoDup (skipn n l).
Proof. revert l. induction n as [|n IH]; intros [|x l] N; cbn [skipn]; auto. inversion N; subst. auto. Qed.

(** the copy of one solution, and its links *)
Lemma linked_new V lo hi t ro' xs sg : is_pair t ->
  (forall a b, In a (occs false t) -> In b (occs false t) -> ro' a = ro' b -> a = b) ->
  (forall a, In a (occs false t) -> lo <= ro' a < hi) -> (forall v, In v V -> v < lo) -> NoDup V ->
  first_occ (occs false (key_of (ren ro' t))) xs ->
  (forall j x, nth_error xs j = Some x -> nth_error (V ++ skipn (length V) xs) j = Some (sg x)) ->
  (forall x, ~ In x xs -> sg x = x) ->
  NoDup (V ++ skipn (length V) xs) /\ linked (V ++ skipn (length V) xs) t (ren sg (ren ro' t)).
Proof.
  intros P Ij R Rv Nd Fo Nt Id. set (V' := V ++ skipn (length V) xs) in *.
  rewrite key_ren, occs_ren in Fo by exact P.
  destruct (first_occ_ex (occs false (key_of t))) as (x0 & F0).
  assert (xs = map ro' x0) as Ex.
  { apply (first_occ_fun _ _ Fo). apply first_occ_map; auto. intros a b Ia Ib. apply Ij; now apply key_occs. }
  assert (Rx : forall x, In x xs -> lo <= x < hi).
  { intros x I. apply (first_occ_In _ _ Fo) in I. apply in_map_iff in I. destruct I as (a & <- & Ia). apply R. now apply key_occs. }
  assert (N' : NoDup V').
  { apply NoDup_app'; [exact Nd|apply skipn_NoDup, (first_occ_NoDup _ _ Fo)|]. intros x I I'. apply skipn_in in I'.
    specialize (Rv x I). specialize (Rx x I'). lia. }
  assert (Iv : forall x, In x xs -> In (sg x) V').
  { intros x I. apply In_nth_error in I. destruct I as (j & E). eapply nth_error_In. apply (Nt j x E). }
  assert (Vx : forall x, lo <= x -> In x V' -> In x xs).
  { intros x Lx I. apply in_app_or in I. destruct I as [I|I]; [specialize (Rv x I); lia|eapply skipn_in; eauto]. }
  split; [exact N'|]. rewrite ren_ren. exists (fun a => sg (ro' a)), x0. split; [reflexivity|]. split; [|split; [exact F0|split]].
  - intros a b Ia Ib E. apply Ij; auto.
    destruct (in_dec Z.eq_dec (ro' a) xs) as [Xa|Xa], (in_dec Z.eq_dec (ro' b) xs) as [Xb|Xb].
    + apply In_nth_error in Xa, Xb. destruct Xa as (i & Ei), Xb as (j & Ej).
      pose proof (Nt _ _ Ei) as Qi. pose proof (Nt _ _ Ej) as Qj. rewrite E in Qi.
      assert (i = j) as ->; [|congruence]. apply (proj1 (NoDup_nth_error V') N'); [|congruence]. apply nth_error_Some. congruence.
    + exfalso. rewrite (Id _ Xb) in E. apply Xb. apply Vx; [apply R; auto|]. rewrite <- E. now apply Iv.
    + exfalso. rewrite (Id _ Xa) in E. apply Xa. apply Vx; [apply R; auto|]. rewrite E. now apply Iv.
    + now rewrite !Id in E by assumption.
  - intros j x E. apply Nt. rewrite Ex. now apply map_nth_error.
  - intros x Ix I. destruct (in_dec Z.eq_dec (ro' x) xs) as [X|X].
    + rewrite Ex in X. apply in_map_iff in X. destruct X as (y & Ey & Iy). assert (y = x) as <-; auto.
      apply Ij; auto. apply key_occs. now apply (first_occ_In _ _ F0).
    + rewrite (Id _ X) in I. destruct (X (Vx _ (proj1 (R x Ix)) I)).
Qed.

Lemma recover_key_ok hend lim q : forall sol1 ts sol2 m H p V ts0 hs us,
  Forall2 (holds m) ts sol1 -> Forall is_pair ts -> all_apart (sol1 ++ sol2) ->
  (forall s x, In s sol1 -> s_adr s <= x < s_adr s + s_size s -> ~ (p - 2 * Z.of_nat (length sol1) <= x < q) /\ ~ (q <= x < hend)) ->
  p <= q -> state lim q m H p V ts0 hs us -> H <= hend ->
  exists F r, (forall fuel, (F <= fuel)%nat -> recover_key hend lim (length sol1) fuel m H p (sol1 ++ sol2) V = Ret r) /\
  match r with
  | RFatal => hend < H + sz ts
  | RThrow => exists t, In t ts /\ more_vars lim (key_of t)
  | ROk m' H' p' sol' => H' = H + sz ts /\ H' <= hend /\ p' = p - 2 * Z.of_nat (length sol1) /\ sol' = sol2 /\
     (exists V' hs' us', state lim q m' H' p' V' (rev ts ++ ts0) hs' us') /\
     (forall x, ~ (p' <= x < p) -> ~ (H <= x < H') -> in_block sol1 x = false -> m' x = m x) /\
     (forall x, in_block sol1 x = true -> m' x = None)
  end.
Proof.
  induction sol1 as [|s sol1 IH]; intros ts sol2 m H p V ts0 hs us Hs Pr Ap Dj Pq St Hh.
  - inversion Hs; subst. exists O, (ROk m H p sol2). split; [reflexivity|]. cbn [sz fold_right length app rev Z.of_nat].
    split; [lia|]. split; [lia|]. split; [lia|]. split; [reflexivity|]. split; [exists V, hs, us; replace (p - 2 * 0) with p by lia; exact St|]. split; [auto|discriminate].
  - inversion Hs as [|t s' ts' sol' Ht Hs' E1 E2]; subst s' sol' ts. inversion Pr as [|? ? Pt Pr']; subst. cbn [app] in *.
    destruct Ht as (Es & (Nf & Ao) & Df & ro & w1 & Ij & K). pose proof (words_pos t) as Wp.
    set (m1 := store (store m (p - 1) (Word (LST p))) (p - 2) (Word (REF H))).
    assert (Ln : Z.of_nat (length (s :: sol1)) = Z.of_nat (length sol1) + 1) by (cbn [length]; lia).
    assert (In_s : In s (s :: sol1)) by (left; reflexivity).
    assert (A1 : forall x, s_adr s <= x < s_adr s + s_size s -> m1 x = m x).
    { intros x R. destruct (Dj s x In_s R) as (D1 & _). unfold m1. rewrite !store_ne by lia. reflexivity. }
    rewrite sz_cons. pose proof (sz_pos ts') as Sz.
    cbn [length recover_key]. fold m1. rewrite Es.
    destruct (Z.ltb_spec hend (H + words_of t)) as [Lt|Ge].
    { exists O, RFatal. split; [reflexivity|lia]. }
    destruct St as [Sc Sd So Sl Sm Sn Sv Sli qH].
    assert (Dst : H + s_size s <= s_adr s \/ s_adr s + s_size s <= H).
    { rewrite Es. destruct (Z.le_gt_cases (H + words_of t) (s_adr s)); [left; lia|].
      destruct (Z.le_gt_cases (s_adr s + words_of t) H); [right; lia|]. exfalso.
      destruct (Dj s (Z.max H (s_adr s)) In_s) as (_ & D2); [rewrite Es; lia|]. apply D2. lia. }
    destruct (K m1 H A1 Dst) as (F1 & m3 & C1 & Cp). set (w2 := shiftw (H - s_adr s) w1) in *. clearbody w2. destruct Cp as [Fr Ro De Dd Nw Ij3].
    set (ro' := fun a => ro a + (H - s_adr s)) in *. set (hi := H + words_of t) in *.
    assert (Occ : forall a, In a (occs false (ren ro' t)) -> H <= a < hi).
    { intros a Ia. rewrite occs_ren in Ia. apply in_map_iff in Ia. destruct Ia as (b & <- & Ib). exact (Nw b Ib). }
    assert (Pt' : is_pair (ren ro' t)) by (destruct Pt as (f & k & l & -> & N); exists f, (ren ro' k), (map (ren ro') l); split; auto).
    assert (Ao' : arity_ok (ren ro' t) = true).
    { clear - Ao. induction t as [a|a|d|n|i|h ts IH] using term_ind'; cbn [ren arity_ok] in *; auto.
      apply andb_true_iff in Ao. destruct Ao as (A1 & A2). rewrite map_length, A1. cbn [andb]. clear A1.
      induction IH as [|t ts Ht _ IHt]; cbn [map forallb] in *; auto. apply andb_true_iff in A2. destruct A2 as (A2 & A3). now rewrite Ht, IHt. }
    assert (V3 : forall v, In v V -> m3 v = Some (Word (REF v)) /\ ~ In v (occs false (ren ro' t))).
    { intros v I. destruct (Sv v I) as (R & E). split; [|intros X; specialize (Occ v X); lia].
      rewrite Fr by lia. unfold m1. rewrite !store_ne by lia. exact E. }
    destruct (handle_ok lim m3 V w2 (ren ro' t) H hi Pt' Ao' ltac:(now rewrite nofd_ren) De Sli V3 Occ) as (F2 & r & C2 & Hr).
    destruct r as [kk|kk|kk].
    2, 3: exists (F1 + F2)%nat, RThrow; split;
      [intros fuel Lf; rewrite C1 by lia; cbn [bind]; unfold rd_word; rewrite Ro; cbn [bind]; rewrite C2 by lia; reflexivity|];
      exists t; split; [now left|]; destruct Hr as (xs & Fo & Lx); rewrite key_ren, occs_ren in Fo by exact Pt;
      destruct (first_occ_ex (occs false (key_of t))) as (x0 & F0);
      assert (Ex : xs = map ro' x0) by (apply (first_occ_fun _ _ Fo); apply first_occ_map; auto; intros a b Ia Ib; apply Ij3; now apply key_occs);
      exists x0; split; [exact (first_occ_NoDup _ _ F0)|]; split; [intros x I; now apply (first_occ_In _ _ F0)|]; rewrite Ex, map_length in Lx; exact Lx.
    destruct Hr as (xs & sg & Fo & Lx & Ev & Ov & Nt & Id). destruct kk as [mk V' nk]. cbn [k_vars k_m] in *.
    set (m4 := forget (s_adr s) (s_size s) mk).
    assert (Xr : forall x, In x xs -> H <= x < hi).
    { intros x I. apply (first_occ_In _ _ Fo) in I. apply Occ. now apply key_occs. }
    assert (Sr : forall x, sg x <> x -> H <= x < hi).
    { intros x N. destruct (in_dec Z.eq_dec x xs) as [I|I]; [auto|destruct (N (Id x I))]. }
    assert (Vr : forall v, In v V' -> q <= v < hi).
    { intros v I. rewrite Ev in I. apply in_app_or in I. destruct I as [I|I]; [destruct (Sv v I); lia|]. apply skipn_in in I. specialize (Xr v I). lia. }
    assert (Nt' : forall j x, nth_error xs j = Some x -> nth_error (V ++ skipn (length V) xs) j = Some (sg x)) by (rewrite Ev in Nt; exact Nt).
    destruct (linked_new V H hi t ro' xs sg Pt Ij3 Nw (fun v I => proj2 (proj1 (Sv v I))) Sn Fo Nt' Id) as (Nd0 & Lk0).
    assert (Nd' : NoDup V') by (rewrite Ev; exact Nd0). assert (Lk : linked V' t (ren sg (ren ro' t))) by (rewrite Ev; exact Lk0).
    pose proof (over_region q hi m3 V' sg mk Ov ltac:(intros x N; specialize (Sr x N); lia) Vr) as Or.
    assert (Ap1 : Forall (apart s) (sol1 ++ sol2)) by (apply Ap). assert (Ap2 : all_apart (sol1 ++ sol2)) by (apply Ap).
    assert (Mk : forall x, ~ (H <= x < hi) -> mk x = m3 x).
    { intros x N. rewrite (ov_mem _ _ _ _ Ov). destruct (Z.eqb_spec (sg x) x) as [E|E]; auto. destruct (N (Sr x E)). }
    assert (Fr4 : forall x, ~ (H <= x < hi) -> x <> p - 1 -> x <> p - 2 -> ~ (s_adr s <= x < s_adr s + s_size s) -> m4 x = m x).
    { intros x X1 X2 X3 X4. unfold m4. rewrite forget_out by exact X4. rewrite Mk by exact X1. rewrite Fr by exact X1. unfold m1. now rewrite !store_ne by lia. }
    assert (Nb : forall x, p - 2 <= x < hend -> ~ (s_adr s <= x < s_adr s + s_size s)).
    { intros x R R'. destruct (Dj s x In_s R') as (D1 & D2). lia. }
    assert (R4 : forall x, region q hi m4 x = region q hi mk x).
    { apply region_ext. intros x R. unfold m4. apply forget_out, Nb. lia. }
    assert (State4 : state lim q m4 hi (p - 2) V' (t :: ts0) (H :: hs) (ren sg (ren ro' t) :: us)).
    { constructor.
      - cbn [cells]. replace (p - 2 + 1) with (p - 1) by lia. replace (p - 2 + 2) with p by lia. split; [|split].
        + unfold m4. rewrite forget_out by (apply Nb; lia). rewrite Mk, Fr by lia. apply store_eq.
        + intros _. unfold m4. rewrite forget_out by (apply Nb; lia). rewrite Mk, Fr by lia. unfold m1. rewrite store_ne by lia. apply store_eq.
        + apply (cells_agree m m4 hs p q Sc). intros x R. apply Fr4; try lia. apply Nb. lia.
      - constructor.
        + refine (den_ext _ _ _ _ R4 _). apply (proj1 (over_den _ _ _ _ Or)).
          assert (Dr : den (region H hi m3) (REF H) (ren ro' t)).
          { assert (Er : region H hi m3 H = Some (Word w2)) by (rewrite region_in by lia; exact Ro).
            destruct (word_eqb w2 (REF H)) eqn:Ew.
            - apply word_eqb_eq in Ew. rewrite <- Ew. exact De.
            - apply den_ref with (w := w2); auto. intros X. subst w2. cbn in Ew. now rewrite Z.eqb_refl in Ew. }
          refine (proj1 (den_sub_both _ _ _) _ _ Dr). intros x c Ex. apply region_some in Ex. rewrite region_in by lia. apply Ex.
        + assert (G : forall h u, den (region q H m) (REF h) u -> (forall a, In a (occs false u) -> q <= a < H) -> den (region q hi m4) (REF h) u).
          { intros h u D R. refine (den_ext _ _ _ _ R4 _). rewrite <- (ren_id sg u).
            - apply (proj1 (over_den _ _ _ _ Or)). refine (proj1 (den_sub_both _ _ _) _ _ D). intros x c Ex. apply region_some in Ex.
              rewrite region_in by lia. rewrite Fr by lia. unfold m1. rewrite !store_ne by lia. apply Ex.
            - intros a Ia. destruct (Z.eq_dec (sg a) a) as [E|E]; auto. specialize (Sr a E). specialize (R a Ia). lia. }
          clear - Sd So G. induction Sd as [|h u hs us D _ IHd]; constructor; inversion So; subst; auto.
      - constructor.
        + intros a Ia. rewrite occs_ren in Ia. apply in_map_iff in Ia. destruct Ia as (b & <- & Ib). specialize (Occ b Ib).
          destruct (Z.eq_dec (sg b) b) as [->|E]; [lia|]. apply Vr. apply (ov_sg _ _ _ _ Ov b E).
        + rewrite Forall_forall in *. intros u I a Ia. specialize (So u I a Ia). lia.
      - constructor; [exact Lk|]. rewrite Ev.
        assert (Rw : forall a, In a (skipn (length V) xs) -> H <= a) by (intros a I; apply skipn_in in I; specialize (Xr a I); lia).
        clear - Sl So Rw. set (W := skipn (length V) xs) in *. clearbody W.
        induction Sl as [|t0 u ts0 us L _ IHl]; constructor; inversion So; subst; auto. apply (linked_app V W q H); auto.
      - constructor.
        + rewrite Forall_forall in *. intros u I a Ia Ia'. specialize (So u I a Ia').
          rewrite occs_ren in Ia. apply in_map_iff in Ia. destruct Ia as (b & Eb & Ib). specialize (Occ b Ib).
          destruct (Z.eq_dec (sg b) b) as [E|E]; [lia|]. rewrite <- Eb. apply (ov_sg _ _ _ _ Ov b E).
        + clear - Sm Ev. induction Sm as [|u us Fu _ IHm]; constructor; auto. rewrite Forall_forall in *. intros v Iv a I1 I2.
          rewrite Ev. apply in_or_app. left. exact (Fu v Iv a I1 I2).
      - exact Nd'.
      - intros v I. specialize (Vr v I). split; [exact Vr|]. unfold m4. rewrite forget_out by (apply Nb; lia).
        destruct (ov_vars _ _ _ _ Ov v I) as (E & Sv'). rewrite (ov_mem _ _ _ _ Ov), Sv', Z.eqb_refl. exact E.
      - rewrite Ev, app_length, skipn_length. lia.
      - lia. }
    specialize (IH ts' sol2 m4 hi (p - 2) V' (t :: ts0) (H :: hs) (ren sg (ren ro' t) :: us)).
    destruct IH as (F3 & r & K3 & Kr); auto.
    + assert (G : forall s', In s' sol1 -> forall x, s_adr s' <= x < s_adr s' + s_size s' -> m4 x = m x).
      { intros s' I' x R. rewrite Forall_forall in Ap1. specialize (Ap1 s' ltac:(apply in_or_app; auto)). unfold apart in Ap1.
        destruct (Dj s' x (or_intror I') R) as (D1 & D2). apply Fr4; try lia. }
      clear - Hs' G. revert G. induction Hs' as [|t0 s0 ts0 l0 Hh _ IHh]; intros G; constructor.
      * refine (holds_agree m m4 t0 s0 Hh _). apply G. now left.
      * apply IHh. intros s' I'. apply G. now right.
    + intros s' x I' R. destruct (Dj s' x (or_intror I') R) as (D1 & D2). split; [lia|exact D2].
    + lia.
    + exists (F1 + F2 + F3)%nat, r. split.
      { intros fuel Lf. rewrite C1 by lia. cbn [bind]. unfold rd_word. rewrite Ro. cbn [bind]. rewrite C2 by lia. cbn [bind k_m k_vars].
        replace (forget (s_adr s) (words_of t) mk) with m4 by (unfold m4; now rewrite Es). apply K3. lia. }
      destruct r as [m' H' p' sol'| |].
      * destruct Kr as (G1 & G2 & G3 & G4 & (V'' & hs' & us' & G5) & G6 & G7). subst p'. subst H'.
        split; [lia|]. split; [lia|]. split; [lia|]. split; [exact G4|]. split; [|split].
        -- exists V'', hs', us'. cbn [rev]. rewrite <- app_assoc. exact G5.
        -- intros x X1 X2 X3. cbn [in_block existsb] in X3. apply orb_false_iff in X3. destruct X3 as (X3 & X4).
           rewrite G6; [|lia|lia|exact X4].
           destruct (Z.leb_spec (s_adr s) x), (Z.ltb_spec x (s_adr s + s_size s)); cbn [andb] in X3; try discriminate; apply Fr4; lia.
        -- intros x X. cbn [in_block existsb] in X. apply orb_true_iff in X.
           destruct (in_block sol1 x) eqn:X4; [now apply G7|]. destruct X as [X|X]; [|unfold in_block in X4; congruence].
           assert (Rx : s_adr s <= x < s_adr s + s_size s) by lia.
           destruct (Dj s x In_s Rx) as (D1 & D2). rewrite G6; [|lia|lia|exact X4].
           unfold m4, forget. now rewrite X.
      * lia.
      * destruct Kr as (u & Iu & Mu). exists u. split; [now right|exact Mu].
Qed.

Lemma Recover_Key_ok hend lim s c lv stop mk tail tt : inv s (c :: lv) -> Forall is_pair c -> f_marks s = stop :: mk ->
  (forall x, f_H s <= x < hend -> f_m s x = None) -> f_H s <= hend ->
  den (visible (f_m s) (f_sol s)) tail tt ->
  exists F r, (forall fuel, (F <= fuel)%nat -> Recover_Solutions_Key hend lim fuel (f_m s) (f_H s) (f_sol s) stop tail = Ret r) /\
  match r with
  | None => hend < f_H s + need c
  | Some BThrow => exists t, In t c /\ more_vars lim (key_of t)
  | Some (BRet (m', H', w, sol')) => H' = f_H s + need c /\ H' <= hend /\
      inv (Fs m' H' sol' mk) lv /\
      (exists V us, den (visible m' sol') w (list_tail us tt) /\ (length V <= lim)%nat /\ Forall2 (linked V) c us /\ ForallOrdPairs (only_common V) us /\
         Forall (fun u => forall a, In a (occs false u) -> f_H s <= a < H') us) /\
      (forall x, ~ (f_H s <= x < H') -> in_block (f_sol s) x = false -> m' x = f_m s x)
  end.
Proof.
  destruct s as [m H sol mks]. cbn [f_m f_H f_sol f_marks]. intros [Ho Ap Nu Mk] Pr Em Fr Hh Dt. cbn [f_m f_H f_sol f_marks] in *.
  subst mks. cbn [marks_ok] in Mk. destruct Mk as (-> & Mk).
  unfold flat in Ho. cbn [map concat] in Ho. fold (flat lv) in Ho.
  destruct (Forall2_split _ _ _ _ Ho) as (sol1 & sol2 & -> & H1 & H2).
  pose proof (Forall2_length _ _ _ H1) as L1. pose proof (Forall2_length _ _ _ H2) as L2. rewrite rev_length in L1.
  unfold Recover_Solutions_Key. rewrite (top_numbered _ Nu), app_length, Nat2Z.inj_add.
  replace (Z.of_nat (length sol1) + Z.of_nat (length sol2) - Z.of_nat (length (flat lv))) with (Z.of_nat (length sol1)) by lia.
  assert (Dv : forall x, in_block (sol1 ++ sol2) x = true -> ~ (H <= x < hend)).
  { intros x B R. exact (holds_def _ _ _ Ho x B (Fr x R)). }
  destruct (Z.eqb_spec (Z.of_nat (length sol1)) 0) as [Z0|N0].
  - exists O. eexists. split; [intros; reflexivity|]. destruct sol1; [|cbn in Z0; lia]. destruct c; [|discriminate].
    unfold need. cbn [length Nat.eqb app] in *. split; [lia|]. split; [lia|]. split; [|split].
    + constructor; cbn [f_m f_H f_sol f_marks]; auto.
    + exists [], []. cbn [list_tail fold_right length]. split; [exact Dt|]. split; [lia|]. repeat split; constructor.
    + auto.
  - destruct (Z.ltb_spec (Z.of_nat (length sol1)) 0); [lia|].
    assert (Nd : need c = 2 * Z.of_nat (length sol1) + sz c).
    { unfold need. rewrite L1. destruct (Nat.eqb_spec (length sol1) 0); [lia|reflexivity]. }
    pose proof (sz_pos c) as Sp.
    destruct (Z.ltb_spec hend (H + 2 * Z.of_nat (length sol1))) as [Lt|Ge].
    { exists O. eexists. split; [intros; reflexivity|]. cbn. lia. }
    set (q := H + 2 * Z.of_nat (length sol1)) in *. rewrite Nat2Z.id.
    assert (St0 : state lim q m q q [] [] [] []).
    { apply State; [reflexivity|apply Forall2_nil|apply Forall_nil|apply Forall2_nil|apply FOP_nil|apply NoDup_nil|intros v []|cbn; lia|lia]. }
    destruct (recover_key_ok hend lim q sol1 (rev c) sol2 m q q [] [] [] [] H1) as (F & r & R1 & R); auto.
    { apply Forall_rev. exact Pr. }
    { intros s x I R. assert (B : in_block (sol1 ++ sol2) x = true).
      { apply in_block_in. exists s. split; [apply in_or_app; auto|exact R]. }
      specialize (Dv x B). split; [|lia]. unfold q. lia. }
    { lia. }
    rewrite sz_rev in R. exists F. destruct r as [m' H' p' sol'| |].
    2:{ exists None. split; [|lia]. intros fuel Hf. rewrite (R1 fuel Hf). reflexivity. }
    2:{ exists (Some BThrow). split; [intros fuel Hf; rewrite (R1 fuel Hf); reflexivity|]. destruct R as (t & I & M). exists t. split; auto. now apply in_rev. }
    destruct R as (-> & R2 & -> & -> & (V & hs & us & St) & R4 & R5). replace (q - 2 * Z.of_nat (length sol1)) with H in * by lia.
    exists (Some (BRet (store m' (q - 1) (Word tail), q + sz c, LST H, sol2))).
    split. { intros fuel Hf. rewrite (R1 fuel Hf). reflexivity. }
    split; [lia|]. split; [lia|]. rewrite rev_involutive, app_nil_r in St. destruct St as [Sc Sd So Sl Sm Sn Sv Sli qH].
    set (m'' := store m' (q - 1) (Word tail)).
    assert (Out : forall x, ~ (H <= x < q + sz c) -> in_block sol1 x = false -> m'' x = m x).
    { intros x X1 X2. unfold m''. rewrite store_ne by lia. apply R4; auto; lia. }
    split; [|split].
    + constructor; cbn [f_m f_H f_sol f_marks].
      * assert (G : forall s', In s' sol2 -> forall x, s_adr s' <= x < s_adr s' + s_size s' -> m'' x = m x).
        { intros s' I x Rx. assert (B : in_block sol2 x = true) by (apply in_block_in; eauto).
          assert (B' : in_block (sol1 ++ sol2) x = true) by (rewrite in_block_app, B; apply orb_true_r).
          apply Out; [specialize (Dv x B'); lia|].
          destruct (in_block sol1 x) eqn:E; auto. rewrite (apart_out sol1 sol2 x Ap E) in B. discriminate. }
        clear - H2 G. induction H2 as [|t s ts l Hh _ IH]; constructor.
        -- refine (holds_agree m m'' t s Hh _). apply G. now left.
        -- apply IH. intros s' I. apply G. now right.
      * exact (apart_app _ _ Ap).
      * exact (num_app _ _ Nu).
      * exact Mk.
    + exists V, us. split; [|split; [exact Sli|split; [exact Sl|split; [exact Sm|]]]].
      * assert (Vis : forall x c, visible m (sol1 ++ sol2) x = Some c -> visible m'' sol2 x = Some c).
        { intros x c0 V0. unfold visible in *. rewrite in_block_app in V0.
          destruct (in_block sol1 x) eqn:B1; cbn [orb] in V0; [discriminate|]. destruct (in_block sol2 x); [discriminate|].
          rewrite Out; auto. intros X. rewrite Fr in V0 by lia. discriminate. }
        assert (Hp : forall x, H <= x < q + sz c -> visible m'' sol2 x = m'' x).
        { intros x X. unfold visible. destruct (in_block sol2 x) eqn:B; auto.
          assert (B' : in_block (sol1 ++ sol2) x = true) by (rewrite in_block_app, B; apply orb_true_r).
          exfalso. apply (Dv x B'). lia. }
        pose proof (cells_len _ _ _ _ Sc) as Ln.
        apply (cells_den _ tail tt) with (q := q) (hs := hs).
        -- refine (proj1 (den_sub_both _ _ _) _ _ Dt). exact Vis.
        -- apply (cells_agree m' _ hs H q Sc). intros x X. rewrite Hp by lia. unfold m''. apply store_ne. lia.
        -- assert (G : forall w u, den (region q (q + sz c) m') w u -> den (visible m'' sol2) w u).
           { intros w u D. refine (proj1 (den_sub_both _ _ _) _ _ D). intros x c0 E. apply region_some in E. destruct E as (R & E).
             rewrite Hp by lia. unfold m''. rewrite store_ne by lia. exact E. }
           clear - Sd G. induction Sd; constructor; auto.
        -- intros ->. cbn [length] in Ln. lia.
        -- rewrite Hp by lia. apply store_eq.
      * rewrite Forall_forall in *. intros u I a Ia. specialize (So u I a Ia). lia.
    + intros x X1 X2. rewrite in_block_app in X2. apply orb_false_iff in X2. destruct X2 as (X2 & _). apply Out; auto.
Qed.

(** ** Fuel *)
Lemma link_mono lim save : forall f f', (f <= f')%nat -> forall s w r,
  Link_Vars lim save f s w = Ret r -> Link_Vars lim save f' s w = Ret r.
Proof.
  induction f as [|f IH]; intros f' Hf s w r Q; [discriminate|]. destruct f' as [|f']; [lia|]. cbn [Link_Vars] in *.
  destruct (deref f (k_m s) w) as [v| |] eqn:E; try discriminate. rewrite (deref_mono _ _ _ _ E ltac:(discriminate) f' ltac:(lia)). cbn [bind] in *.
  assert (K : forall n s a x, link_args (Link_Vars lim save f) n s a = Ret x -> link_args (Link_Vars lim save f') n s a = Ret x).
  { induction n as [|n IHn]; intros s0 a x; cbn [link_args]; auto.
    destruct (rd_word (k_m s0) a) as [u| |]; cbn [bind]; auto.
    destruct n as [|n]; [apply IH; lia|].
    destruct (Link_Vars lim save f s0 u) as [y| |] eqn:Ey; try discriminate. rewrite (IH f' ltac:(lia) _ _ _ Ey). cbn [bind].
    destruct y; auto. }
  destruct v; auto. destruct (rd_func (k_m s) a) as [fn| |]; try discriminate. cbn [bind] in *. auto.
Qed.
Lemma recover_key_mono hend lim : forall n f f', (f <= f')%nat -> forall m H p sol vars r,
  recover_key hend lim n f m H p sol vars = Ret r -> recover_key hend lim n f' m H p sol vars = Ret r.
Proof.
  induction n as [|n IH]; intros f f' Hf m H p sol vars r; cbn [recover_key]; auto.
  destruct sol as [|s sol]; auto. destruct (hend <? H + s_size s); auto.
  match goal with |- context[Copy_Contiguous_Term f ?mm ?d ?a] => destruct (Copy_Contiguous_Term f mm d a) as [m1| |] eqn:E; try discriminate end.
  rewrite (cont_mono f f' Hf _ _ _ _ E). cbn [bind]. destruct (rd_word m1 H) as [w| |]; try discriminate. cbn [bind].
  unfold Handle_Key_Variables. destruct (deref f m1 w) as [v| |] eqn:Ev; try discriminate.
  rewrite (deref_mono _ _ _ _ Ev ltac:(discriminate) f' ltac:(lia)). cbn [bind]. destruct v; try discriminate.
  destruct (rd_word m1 (a + 1)) as [k| |]; try discriminate. cbn [bind].
  destruct (Link_Vars lim (length vars) f (Kst m1 vars 0) k) as [y| |] eqn:Ey; try discriminate.
  rewrite (link_mono lim _ f f' Hf _ _ _ Ey). cbn [bind]. destruct y; auto. apply IH. exact Hf.
Qed.
Lemma Recover_Key_mono hend lim m H sol stop tail f f' r : (f <= f')%nat ->
  Recover_Solutions_Key hend lim f m H sol stop tail = Ret r -> Recover_Solutions_Key hend lim f' m H sol stop tail = Ret r.
Proof.
  intros Hf. unfold Recover_Solutions_Key. destruct (_ =? 0); auto. destruct (_ <? 0); auto. destruct (hend <? _); auto.
  destruct (recover_key hend lim _ f m _ _ sol []) as [x| |] eqn:E; try discriminate. now rewrite (recover_key_mono hend lim _ f f' Hf _ _ _ _ _ _ E).
Qed.

Lemma step_inv L hend fd lim s e s' lv : inv s lv -> legal L hend s e ->
  match e with EBag _ _ => Forall is_pair (hd [] lv) | _ => True end -> step hend fd lim s e s' -> inv s' (real_step lv e).
Proof.
  intros I Le Bg St. destruct St; cbn [legal f_m f_H f_sol f_marks] in *.
  - destruct I as [Ho Ap Nu Mk]. constructor; cbn [f_m f_H f_sol f_marks real_step ideal_step] in *; auto.
    assert (G : forall s', In s' sol -> forall x, s_adr s' <= x < s_adr s' + s_size s' -> m' x = m x) by eauto.
    assert (Ho' : Forall2 (holds m') (flat lv) sol).
    { clear - Ho G. induction Ho as [|t s ts l Hh _ IH]; constructor.
      * refine (holds_agree m m' t s Hh _). apply G. now left.
      * apply IH. intros s' I. apply G. now right. }
    all: destruct lv; assumption.
  - destruct I as [Ho Ap Nu Mk]. constructor; cbn [f_m f_H f_sol f_marks real_step ideal_step marks_ok] in *; auto.
    split; [|exact Mk]. unfold Stop_Mark. rewrite (top_numbered _ Nu), (Forall2_length _ _ _ Ho). reflexivity.
  - destruct Le as (W & Ww & D & Nf & Fr). cbn [real_step].
    exact (store_inv L fd lim fuel m H sol mk w a t m' sol' lv I H0 W Ww D Nf Fr H1).
  - destruct Le as (Hh & Fr & tt & D). pose proof (i_marks _ _ I) as Mk. cbn [f_marks] in Mk.
    destruct lv as [|c lv]; [destruct Mk|]. cbn [real_step ideal_step].
    destruct (Recover_ok hend (Fs m H sol (stop :: mk)) c lv stop mk tail tt I eq_refl Fr Hh D) as (F & r & K & Kr).
    cbn [f_m f_H f_sol] in K. pose proof (Recover_mono hend m H sol stop tail fuel (F + fuel) _ ltac:(lia) H0) as E.
    rewrite K in E by lia. injection E as ->. apply Kr.
  - destruct Le as (Hh & Fr & tt & D). pose proof (i_marks _ _ I) as Mk. cbn [f_marks] in Mk.
    destruct lv as [|c lv]; [destruct Mk|]. cbn [real_step ideal_step hd] in *.
    destruct (Recover_Key_ok hend lim (Fs m H sol (stop :: mk)) c lv stop mk tail tt I Bg eq_refl Fr Hh D) as (F & r & K & Kr).
    cbn [f_m f_H f_sol] in K. pose proof (Recover_Key_mono hend lim m H sol stop tail fuel (F + fuel) _ ltac:(lia) H0) as E.
    rewrite K in E by lia. injection E as ->. apply Kr.
  - destruct I as [Ho Ap Nu Mk]. constructor; cbn [f_m f_H f_sol f_marks real_step] in *; auto.
    + rewrite flat_merges. exact Ho.
    + apply marks_merges; auto.
Qed.
