(** Proofs about sub_atom/5 and atom_concat/3. *)
Require Import ZArith List Bool Lia Sorted.
Require Import Verif.Heap_Model Verif.SubAtom_Model Verif.SubAtom_Spec.
Import ListNotations.
Open Scope Z_scope.

Lemma val_eqb_eq x y : val_eqb x y = true <-> x = y.
Proof.
  destruct x as [a|s], y as [b|t]; cbn; try (split; congruence).
  - rewrite Z.eqb_eq. split; congruence.
  - destruct (list_eq_dec Z.eq_dec s t); split; congruence.
Qed.
Lemma seqb_eq s t : seqb s t = true <-> s = t.
Proof. unfold seqb. destruct (list_eq_dec Z.eq_dec s t); split; congruence. Qed.

(** ** Unification of the arguments one after the other *)
Definition cons_ (l : list (arg * val)) : Prop := forall p q, In p l -> In q l -> agree p q = true.
Lemma consistent_iff l : consistent l = true <-> cons_ l.
Proof.
  unfold consistent, cons_. rewrite forallb_forall. split.
  - intros H0 p q Ip Iq. specialize (H0 p Ip). rewrite forallb_forall in H0. auto.
  - intros H0 p Ip. apply forallb_forall. intros q Iq. auto.
Qed.
Definition rep (l : list (arg * val)) (e : env) : Prop :=
  (forall v x, lookup e v = Some x <-> In (Var v, x) l) /\ (forall w x, In (Val w, x) l -> w = x).
Lemma rep_nil : rep [] []. Proof. split; cbn; [intros; split; [discriminate|intros []]|intros ? ? []]. Qed.
Lemma rep_cons l e : rep l e -> cons_ l.
Proof.
  intros [A B] [t x] [u y] Ip Iq. unfold agree. cbn [fst snd]. destruct t as [v|w]; [|apply val_eqb_eq; eauto].
  destruct u as [w|]; [|reflexivity]. destruct (Nat.eqb_spec v w) as [->|]; [|reflexivity]. apply val_eqb_eq. apply A in Ip, Iq. congruence.
Qed.
Lemma rep_deref l e t x : rep l e -> In (t, x) l -> deref_arg e t = Some x.
Proof. intros [A B] I. destruct t as [v|w]; cbn [deref_arg]; [now apply A|f_equal; eauto]. Qed.
Lemma Get_rep l e t x : rep l e -> match Get x t e with Some e' => rep ((t, x) :: l) e' | None => ~ cons_ ((t, x) :: l) end.
Proof.
  intros R. assert (R' := R). destruct R' as [A B]. destruct t as [v|w]; cbn [Get].
  - destruct (lookup e v) as [y|] eqn:L.
    + destruct (val_eqb x y) eqn:E.
      * apply val_eqb_eq in E. subst y. split; [|intros w z [Q|I]; [discriminate|eauto]]. intros w z. rewrite A. cbn [In]. split; [tauto|]. intros [Q|I]; [|exact I]. inversion Q; subst. now apply A.
      * intros C. apply A in L. specialize (C (Var v, x) (Var v, y) (or_introl eq_refl) (or_intror L)). unfold agree in C. cbn [fst snd] in C. rewrite Nat.eqb_refl in C. congruence.
    + split; [|intros w z [Q|I]; [discriminate|eauto]]. intros w z. cbn [lookup In]. destruct (Nat.eqb_spec w v) as [->|N].
      * split; [intros Q; inversion Q; now left|]. intros [Q|I]; [inversion Q; reflexivity|]. apply A in I. congruence.
      * rewrite A. split; [tauto|]. intros [Q|I]; [congruence|exact I].
  - destruct (val_eqb x w) eqn:E.
    + apply val_eqb_eq in E. subst w. split; [|intros w z [Q|I]; [congruence|eauto]]. intros v z. rewrite A. cbn [In]. split; [tauto|]. intros [Q|I]; [discriminate|exact I].
    + intros C. specialize (C (Val w, x) (Val w, x) (or_introl eq_refl) (or_introl eq_refl)). unfold agree in C. cbn [fst snd] in C. apply val_eqb_eq in C. subst w.
      rewrite (proj2 (val_eqb_eq x x) eq_refl) in E. discriminate.
Qed.
Fixpoint Gets (ps : list (arg * val)) (e : env) : option env :=
  match ps with [] => Some e | (t, x) :: ps => match Get x t e with Some e => Gets ps e | None => None end end.
Lemma Gets_rep : forall ps l e, rep l e -> match Gets ps e with Some e' => rep (rev ps ++ l) e' | None => ~ cons_ (rev ps ++ l) end.
Proof.
  induction ps as [|[t x] ps IH]; intros l e R; cbn [Gets rev]; [exact R|]. pose proof (Get_rep l e t x R) as G. rewrite <- app_assoc. cbn [app]. destruct (Get x t e) as [e'|].
  - exact (IH _ _ G).
  - intros C. apply G. intros p q Ip Iq. apply C; apply in_or_app; now right.
Qed.
Lemma Gets_ok ps : match Gets ps [] with Some e => cons_ ps /\ (forall t x, In (t, x) ps -> deref_arg e t = Some x) | None => ~ cons_ ps end.
Proof.
  pose proof (Gets_rep ps [] [] rep_nil) as G. rewrite app_nil_r in G. destruct (Gets ps []) as [e|].
  - split.
    + intros p q Ip Iq. apply (rep_cons _ _ G); now apply -> in_rev.
    + intros t x I. apply (rep_deref _ _ _ _ G). now apply -> in_rev.
  - intros C. apply G. intros p q Ip Iq. apply C; now apply in_rev.
Qed.

(** ** Ranges *)
Lemma zrange_nil lo hi : hi < lo -> zrange lo hi = [].
Proof. intros L. unfold zrange. replace (Z.to_nat (hi - lo + 1)) with 0%nat by lia. reflexivity. Qed.
Lemma zrange_cons lo hi : lo <= hi -> zrange lo hi = lo :: zrange (lo + 1) hi.
Proof.
  intros L. unfold zrange. replace (Z.to_nat (hi - lo + 1)) with (S (Z.to_nat (hi - (lo + 1) + 1))) by lia. cbn [seq map]. f_equal; [lia|].
  rewrite <- seq_shift, map_map. apply map_ext. intros i. lia.
Qed.
Lemma zrange_in x lo hi : In x (zrange lo hi) <-> lo <= x <= hi.
Proof.
  unfold zrange. rewrite in_map_iff. split.
  - intros [i [<- I]]. apply in_seq in I. lia.
  - intros R. exists (Z.to_nat (x - lo)). split; [lia|]. apply in_seq. lia.
Qed.
Lemma zrange_app lo mid hi : lo <= mid + 1 -> mid <= hi -> zrange lo hi = zrange lo mid ++ zrange (mid + 1) hi.
Proof.
  intros L1 L2. remember (Z.to_nat (mid + 1 - lo)) as k eqn:Ek. revert lo L1 Ek. induction k as [|k IH]; intros lo L1 Ek.
  - replace lo with (mid + 1) by lia. rewrite (zrange_nil (mid + 1) mid) by lia. reflexivity.
  - rewrite (zrange_cons lo hi), (zrange_cons lo mid) by lia. cbn [app]. f_equal. apply IH; lia.
Qed.
Lemma flat_nil {A B} (f : A -> list B) l : (forall x, In x l -> f x = []) -> flat_map f l = [].
Proof. induction l as [|x l IH]; intros H0; cbn [flat_map]; [reflexivity|]. rewrite H0 by now left. apply IH. intros; apply H0; now right. Qed.
Lemma flat_ext {A B} (f g : A -> list B) l : (forall x, In x l -> f x = g x) -> flat_map f l = flat_map g l.
Proof. induction l as [|x l IH]; intros H0; cbn [flat_map]; [reflexivity|]. rewrite H0 by now left. f_equal. apply IH. intros; apply H0; now right. Qed.
Lemma flat_one {B} (f : Z -> list B) x0 lo hi : (forall x, lo <= x <= hi -> x <> x0 -> f x = []) ->
  flat_map f (zrange lo hi) = if (lo <=? x0) && (x0 <=? hi) then f x0 else [].
Proof.
  intros H0. destruct (Z.leb_spec lo x0), (Z.leb_spec x0 hi); cbn [andb].
  - rewrite (zrange_app lo (x0 - 1) hi) by lia. rewrite flat_map_app. replace (x0 - 1 + 1) with x0 by lia. rewrite (zrange_cons x0 hi) by lia. cbn [flat_map].
    rewrite (flat_nil f (zrange lo (x0 - 1))), (flat_nil f (zrange (x0 + 1) hi)); [now rewrite app_nil_r| |]; intros x I; apply zrange_in in I; apply H0; lia.
  - apply flat_nil. intros x I. apply zrange_in in I. apply H0; lia.
  - apply flat_nil. intros x I. apply zrange_in in I. apply H0; lia.
  - apply flat_nil. intros x I. apply zrange_in in I. apply H0; lia.
Qed.

(** ** Strings *)
Lemma at_off_ok s b : 0 <= b <= Z.of_nat (length s) -> at_off s b = Ret (skipn (Z.to_nat b) s).
Proof. intros R. unfold at_off. destruct (Z.leb_spec 0 b), (Z.leb_spec b (Z.of_nat (length s))); try lia. reflexivity. Qed.
Lemma strstr_ok t : forall s i, match strstr i s t with
  | Some j => i <= j /\ j - i + Z.of_nat (length t) <= Z.of_nat (length s) /\ part s (j - i) (Z.of_nat (length t)) = t /\ (forall k, 0 <= k < j - i -> part s k (Z.of_nat (length t)) <> t)
  | None => forall k, 0 <= k <= Z.of_nat (length s) -> part s k (Z.of_nat (length t)) <> t
  end.
Proof.
  induction s as [|c s IH]; intros i; cbn [strstr].
  - destruct (seqb (firstn (length t) []) t) eqn:E.
    + apply seqb_eq in E. rewrite firstn_nil in E. subst t. cbn. split; [lia|]. split; [lia|]. split; [reflexivity|]. intros k R. lia.
    + intros k R Q. unfold part in Q. rewrite Nat2Z.id, skipn_nil in Q. assert (C : seqb (firstn (length t) []) t = true) by now apply seqb_eq. congruence.
  - destruct (seqb (firstn (length t) (c :: s)) t) eqn:E.
    + apply seqb_eq in E. split; [lia|]. split; [rewrite <- E at 1; rewrite firstn_length; cbn [length]; lia|]. split; [unfold part; rewrite Nat2Z.id; replace (Z.to_nat (i - i)) with 0%nat by lia; exact E|]. intros k R. lia.
    + assert (N0 : part (c :: s) 0 (Z.of_nat (length t)) <> t). { unfold part. rewrite Nat2Z.id. cbn [skipn Z.to_nat]. intros Q. apply seqb_eq in Q. congruence. }
      assert (Sh : forall k, 0 < k -> part (c :: s) k (Z.of_nat (length t)) = part s (k - 1) (Z.of_nat (length t))).
      { intros k Hk. unfold part. replace (Z.to_nat k) with (S (Z.to_nat (k - 1))) by lia. reflexivity. }
      specialize (IH (i + 1)). destruct (strstr (i + 1) s t) as [j|].
      * destruct IH as [A [B [C D]]]. split; [lia|]. split; [cbn [length]; lia|]. split.
        -- rewrite Sh by lia. now replace (j - i - 1) with (j - (i + 1)) by lia.
        -- intros k R. destruct (Z.eq_dec k 0) as [->|]; [exact N0|]. rewrite Sh by lia. apply D. lia.
      * intros k R. destruct (Z.eq_dec k 0) as [->|]; [exact N0|]. rewrite Sh by lia. apply IH. cbn [length] in R. lia.
Qed.
Lemma skipn_skipn_ {A} : forall i j (l : list A), skipn i (skipn j l) = skipn (i + j) l.
Proof. intros i j. revert i. induction j as [|j IH]; intros i l; [now rewrite Nat.add_0_r|]. destruct l as [|x l]; [now rewrite !skipn_nil|]. rewrite Nat.add_succ_r. cbn [skipn]. apply IH. Qed.
Lemma part_skip s b k l : 0 <= b -> 0 <= k -> part (skipn (Z.to_nat b) s) k l = part s (b + k) l.
Proof. intros Hb Hk. unfold part. f_equal. rewrite skipn_skipn_. f_equal. lia. Qed.
Lemma strstr_at_ok s b t : 0 <= b <= Z.of_nat (length s) -> exists r, strstr_at s b t = Ret r /\
  match r with
  | Some j => b <= j /\ j + Z.of_nat (length t) <= Z.of_nat (length s) /\ part s j (Z.of_nat (length t)) = t /\ (forall k, b <= k < j -> part s k (Z.of_nat (length t)) <> t)
  | None => forall k, b <= k <= Z.of_nat (length s) -> part s k (Z.of_nat (length t)) <> t
  end.
Proof.
  intros R. unfold strstr_at. rewrite at_off_ok by exact R. cbn [bind]. eexists. split; [reflexivity|]. pose proof (strstr_ok t (skipn (Z.to_nat b) s) b) as H0.
  assert (Ls : Z.of_nat (length (skipn (Z.to_nat b) s)) = Z.of_nat (length s) - b) by (rewrite skipn_length; lia). destruct (strstr b (skipn (Z.to_nat b) s) t) as [j|].
  - destruct H0 as [A [B [C D]]]. split; [lia|]. split; [lia|]. rewrite part_skip in C by lia. replace (b + (j - b)) with j in C by lia. split; [exact C|].
    intros k Rk. specialize (D (k - b) ltac:(lia)). rewrite part_skip in D by lia. now replace (b + (k - b)) with k in D by lia.
  - intros k Rk. specialize (H0 (k - b) ltac:(lia)). rewrite part_skip in H0 by lia. now replace (b + (k - b)) with k in H0 by lia.
Qed.

(** ** sub_atom *)
Section Sub.
Variable name : list Z.
Variable g : bla.
Notation n := (Z.of_nat (length name)).
Hypothesis short : n < 2 ^ 16.
Lemma plen_n : plen name = n. Proof. unfold plen. rewrite Z.mod_small; lia. Qed.
Definition four (b l : Z) : list (arg * val) := [(before g, VInt b); (len g, VInt l); (after g, VInt (n - b - l)); (sub g, VAtm (part name b l))].
Lemma try_yes b l : cons_ (four b l) -> try_sub name g b l = [(VInt b, VInt l, VInt (n - b - l), VAtm (part name b l))].
Proof. intros C. unfold try_sub. cbv zeta. apply consistent_iff in C. unfold four in C. now rewrite C. Qed.
Lemma try_no b l : ~ cons_ (four b l) -> try_sub name g b l = [].
Proof.
  intros C. unfold try_sub. cbv zeta. destruct (consistent _) eqn:E; [|reflexivity]. apply consistent_iff in E. contradiction.
Qed.
Lemma fixed_no b l t x : In (t, x) (four b l) -> (exists y, t = Val y /\ y <> x) -> try_sub name g b l = [].
Proof.
  intros I [y [-> N]]. apply try_no. intros C. specialize (C _ _ I I). unfold agree in C. cbn [fst snd] in C. apply val_eqb_eq in C. congruence.
Qed.
(** unifying the arguments in any order gives the answer *)
Lemma answers_ok ps b l : (forall p, In p ps -> In p (four b l)) -> (forall t x, In (t, x) (four b l) -> In (t, x) ps \/ t = Val x) ->
  answers g (Gets ps []) = try_sub name g b l.
Proof.
  intros I1 I2. pose proof (Gets_ok ps) as G. destruct (Gets ps []) as [e|]; cbn [answers].
  - destruct G as [C D]. assert (Hd : forall t x, In (t, x) (four b l) -> deref_arg e t = Some x) by (intros t x I; destruct (I2 t x I) as [J| ->]; [auto|reflexivity]).
    unfold answer. rewrite (Hd (before g) (VInt b)), (Hd (len g) (VInt l)), (Hd (after g) (VInt (n - b - l))), (Hd (sub g) (VAtm (part name b l))) by (cbn; tauto).
    cbn [to_list]. symmetry. apply try_yes. intros [t x] [u y] Ip Iq. destruct (I2 _ _ Ip) as [Jp| ->].
    + destruct (I2 _ _ Iq) as [Jq| ->]; [exact (C _ _ Jp Jq)|]. destruct t as [v|w]; [reflexivity|]. specialize (C _ _ Jp Jp). exact C.
    + unfold agree. cbn [fst snd]. now apply val_eqb_eq.
  - symmetry. apply try_no. intros C. apply G. intros p q Ip Iq. auto.
Qed.
(** *** the sub-atom is a variable *)
Section SubVar.
Variable v : nat.
Hypothesis Hsub : sub g = Var v.
Hypothesis unshared : len g <> Var v.
Lemma Give_ok mask b l : mask <= 7 -> 0 <= b -> 0 <= l -> b + l <= n -> (forall x, len g = Val x -> x = VInt l) ->
  exists r, Give mask name g [] b l (n - b - l) = Ret r /\ answers g r = try_sub name g b l.
Proof.
  intros Hm Hb Hl Hbl Hlen. unfold Give. destruct (Z.leb_spec mask 7); [|lia]. destruct (Z.ltb_spec l 0); [lia|]. rewrite at_off_ok by lia. cbn [bind]. rewrite Hsub. cbn [Get lookup]. fold (part name b l).
  exists (Gets [(sub g, VAtm (part name b l)); (len g, VInt l); (before g, VInt b); (after g, VInt (n - b - l))] []). split.
  - cbn [Gets]. rewrite Hsub. cbn [Get lookup]. destruct (Get (VInt l) (len g) [(v, VAtm (part name b l))]) as [e|] eqn:E.
    + destruct (Get (VInt b) (before g) e) as [e'|]; [|reflexivity]. destruct (Get (VInt (n - b - l)) (after g) e'); reflexivity.
    + exfalso. destruct (len g) as [w|x] eqn:El; cbn [Get lookup] in E.
      * destruct (Nat.eqb_spec w v) as [->|]; [congruence|discriminate].
      * rewrite (Hlen x eq_refl) in E. rewrite (proj2 (val_eqb_eq _ _) eq_refl) in E. discriminate.
  - apply answers_ok; cbn [In four]; intros; tauto.
Qed.
(** nothing fixed *)
Lemma alt0 : (forall x, len g <> Val x) -> forall fuel b l, 0 <= b -> 0 <= l -> b + l <= n -> (n - b) * (n + 2) + (n - b - l) + 1 <= Z.of_nat fuel ->
  Sub_Atom_Alt fuel 0 name [] g [] b l (n - b - l) = Ret (flat_map (try_sub name g b) (zrange l (n - b)) ++ flat_map (fun b => flat_map (try_sub name g b) (zrange 0 (n - b))) (zrange (b + 1) n)).
Proof.
  intros Nl. induction fuel as [|f IH]; intros b l Hb Hl Hbl Hf; [nia|]. cbn [Sub_Atom_Alt Compute_Next_BLA]. rewrite plen_n.
  destruct (Give_ok 0 b l ltac:(lia) Hb Hl Hbl ltac:(intros x E; destruct (Nl x E))) as [r [Er Ar]].
  rewrite (zrange_cons l (n - b)) by lia. cbn [flat_map]. destruct (Z.ltb_spec (n - b) (l + 1)) as [L1|L1].
  - rewrite (zrange_nil (l + 1) (n - b)) by lia. cbn [flat_map]. rewrite app_nil_r. destruct (Z.ltb_spec n (b + 1)) as [L2|L2].
    + cbn [bind]. rewrite Er. cbn [bind]. rewrite Ar. rewrite (zrange_nil (b + 1) n) by lia. reflexivity.
    + cbn [bind]. rewrite Er. cbn [bind]. rewrite IH by nia. cbn [bind]. rewrite Ar. rewrite (zrange_cons (b + 1) n) by lia. reflexivity.
  - cbn [bind]. rewrite Er. cbn [bind]. rewrite IH by nia. cbn [bind]. rewrite Ar. now rewrite <- app_assoc.
Qed.
Lemma alt1 a0 : 0 <= a0 -> (forall x, len g <> Val x) -> forall fuel b, 0 <= b -> b + a0 <= n -> n - b + 1 <= Z.of_nat fuel ->
  Sub_Atom_Alt fuel 1 name [] g [] b (n - b - a0) a0 = Ret (flat_map (fun b => try_sub name g b (n - b - a0)) (zrange b (n - a0))).
Proof.
  intros Ha Nl. induction fuel as [|f IH]; intros b Hb Hbl Hf; [lia|]. cbn [Sub_Atom_Alt Compute_Next_BLA]. rewrite plen_n.
  destruct (Give_ok 1 b (n - b - a0) ltac:(lia) Hb ltac:(lia) ltac:(lia) ltac:(intros x E; destruct (Nl x E))) as [r [Er Ar]].
  replace (n - b - (n - b - a0)) with a0 in Er by lia. rewrite (zrange_cons b (n - a0)) by lia. cbn [flat_map]. destruct (Z.ltb_spec (n - a0) (b + 1)) as [L1|L1]; cbn [bind]; rewrite Er; cbn [bind].
  - rewrite (zrange_nil (b + 1) (n - a0)) by lia. now rewrite Ar.
  - rewrite IH by lia. cbn [bind]. now rewrite Ar.
Qed.
Lemma alt2 l : 0 <= l -> len g = Val (VInt l) -> forall fuel b, 0 <= b -> b + l <= n -> n - b + 1 <= Z.of_nat fuel ->
  Sub_Atom_Alt fuel 2 name [] g [] b l (n - b - l) = Ret (flat_map (fun b => try_sub name g b l) (zrange b (n - l))).
Proof.
  intros Ha El. induction fuel as [|f IH]; intros b Hb Hbl Hf; [lia|]. cbn [Sub_Atom_Alt Compute_Next_BLA]. rewrite plen_n.
  destruct (Give_ok 2 b l ltac:(lia) Hb ltac:(lia) ltac:(lia) ltac:(intros x E; congruence)) as [r [Er Ar]].
  rewrite (zrange_cons b (n - l)) by lia. cbn [flat_map]. destruct (Z.ltb_spec (n - l) (b + 1)) as [L1|L1]; cbn [bind]; rewrite Er; cbn [bind].
  - rewrite (zrange_nil (b + 1) (n - l)) by lia. now rewrite Ar.
  - rewrite IH by lia. cbn [bind]. now rewrite Ar.
Qed.
Lemma alt4 b : 0 <= b -> (forall x, len g <> Val x) -> forall fuel l, 0 <= l -> b + l <= n -> n - l + 1 <= Z.of_nat fuel ->
  Sub_Atom_Alt fuel 4 name [] g [] b l (n - b - l) = Ret (flat_map (try_sub name g b) (zrange l (n - b))).
Proof.
  intros Hb Nl. induction fuel as [|f IH]; intros l Hl Hbl Hf; [lia|]. cbn [Sub_Atom_Alt Compute_Next_BLA]. rewrite plen_n.
  destruct (Give_ok 4 b l ltac:(lia) Hb ltac:(lia) ltac:(lia) ltac:(intros x E; destruct (Nl x E))) as [r [Er Ar]].
  rewrite (zrange_cons l (n - b)) by lia. cbn [flat_map]. destruct (Z.ltb_spec (n - b) (l + 1)) as [L1|L1]; cbn [bind]; rewrite Er; cbn [bind].
  - rewrite (zrange_nil (l + 1) (n - b)) by lia. now rewrite Ar.
  - rewrite IH by lia. cbn [bind]. now rewrite Ar.
Qed.
End SubVar.
(** *** the sub-atom is an atom *)
Section SubAtm.
Variable t : list Z.
Hypothesis Hsub : sub g = Val (VAtm t).
Notation lt_ := (Z.of_nat (length t)).
Lemma part_no b l : part name b l <> t -> try_sub name g b l = [].
Proof. intros N. apply (fixed_no b l (sub g) (VAtm (part name b l))); [cbn; tauto|]. exists (VAtm t). split; [exact Hsub|congruence]. Qed.
Lemma part_len b l : 0 <= b -> 0 <= l -> b + l <= n -> Z.of_nat (length (part name b l)) = l.
Proof. intros Hb Hl Hbl. unfold part. rewrite firstn_length, skipn_length. lia. Qed.
Lemma len_no b l : 0 <= b -> 0 <= l -> b + l <= n -> l <> lt_ -> try_sub name g b l = [].
Proof. intros Hb Hl Hbl N. apply part_no. intros E. pose proof (part_len b l Hb Hl Hbl). rewrite E in H. lia. Qed.
Lemma answers_sub e0 b : Get (VInt lt_) (len g) [] = Some e0 -> part name b lt_ = t ->
  answers g (match Get (VInt b) (before g) e0 with Some e => Get (VInt (n - b - lt_)) (after g) e | None => None end) = try_sub name g b lt_.
Proof.
  intros E0 Ep. rewrite <- (answers_ok [(len g, VInt lt_); (before g, VInt b); (after g, VInt (n - b - lt_))] b lt_).
  - f_equal. cbn [Gets]. rewrite E0. destruct (Get (VInt b) (before g) e0) as [e|]; [|reflexivity]. destruct (Get (VInt (n - b - lt_)) (after g) e); reflexivity.
  - cbn [In four]. tauto.
  - cbn [In four]. intros u x I. destruct I as [I|[I|[I|[I|[]]]]]; [tauto|tauto|tauto|]. inversion I; subst u x. rewrite Hsub, Ep. now right.
Qed.
Lemma alt8 e0 : Get (VInt lt_) (len g) [] = Some e0 -> forall fuel b, 0 <= b -> b + lt_ <= n -> part name b lt_ = t -> n - b + 1 <= Z.of_nat fuel ->
  Sub_Atom_Alt fuel 8 name t g e0 b lt_ (n - b - lt_) = Ret (flat_map (fun b => try_sub name g b lt_) (zrange b (n - lt_))).
Proof.
  intros E0. induction fuel as [|f IH]; intros b Hb Hbl Ep Hf; [lia|]. cbn [Sub_Atom_Alt]. unfold Compute_Next_BLA. rewrite plen_n. cbn [Give]. unfold Give. cbn [Z.leb Z.compare Pos.compare Pos.compare_cont bind].
  rewrite (zrange_cons b (n - lt_)) by lia. cbn [flat_map]. pose proof (answers_sub e0 b E0 Ep) as A. destruct (Z.ltb_spec (n - lt_) (b + 1)) as [L1|L1].
  - cbn [bind]. rewrite (zrange_nil (b + 1) (n - lt_)) by lia. cbn [flat_map]. now rewrite A.
  - destruct (strstr_at_ok name (b + 1) t ltac:(lia)) as [r [Er Hr]]. rewrite Er. cbn [bind]. destruct r as [j|]; cbn [bind].
    + destruct Hr as [A1 [A2 [A3 A4]]]. rewrite IH by lia || assumption. cbn [bind]. rewrite A. do 2 f_equal. rewrite (zrange_app (b + 1) (j - 1) (n - lt_)) by lia. rewrite flat_map_app.
      rewrite (flat_nil _ (zrange (b + 1) (j - 1))); [now replace (j - 1 + 1) with j by lia|]. intros k I. apply zrange_in in I. apply part_no. apply A4. lia.
    + rewrite A. do 2 f_equal. symmetry. apply flat_nil. intros k I. apply zrange_in in I. apply part_no. apply Hr. lia.
Qed.
End SubAtm.
End Sub.

(** ** The whole predicate *)
Definition typed (g : bla) : Prop :=
  (forall x, before g = Val x -> exists z, x = VInt z /\ 0 <= z) /\ (forall x, len g = Val x -> exists z, x = VInt z /\ 0 <= z) /\
  (forall x, after g = Val x -> exists z, x = VInt z /\ 0 <= z) /\ (forall x, sub g = Val x -> exists s, x = VAtm s).
Section Whole.
Variable name : list Z.
Variable g : bla.
Notation n := (Z.of_nat (length name)).
Lemma b_no b0 b l : before g = Val (VInt b0) -> b <> b0 -> try_sub name g b l = [].
Proof. intros E N. apply (fixed_no name g b l (before g) (VInt b)); [cbn; tauto|]. exists (VInt b0). split; [exact E|congruence]. Qed.
Lemma l_no l0 b l : len g = Val (VInt l0) -> l <> l0 -> try_sub name g b l = [].
Proof. intros E N. apply (fixed_no name g b l (len g) (VInt l)); [cbn; tauto|]. exists (VInt l0). split; [exact E|congruence]. Qed.
Lemma a_no a0 b l : after g = Val (VInt a0) -> n - b - l <> a0 -> try_sub name g b l = [].
Proof. intros E N. apply (fixed_no name g b l (after g) (VInt (n - b - l))); [cbn; tauto|]. exists (VInt a0). split; [exact E|congruence]. Qed.
Lemma sol_point b0 l0 : (forall b l, 0 <= b <= n -> 0 <= l <= n - b -> b <> b0 \/ l <> l0 -> try_sub name g b l = []) ->
  sub_solutions name g = if (0 <=? b0) && (0 <=? l0) && (b0 + l0 <=? n) then try_sub name g b0 l0 else [].
Proof.
  intros H0. unfold sub_solutions. rewrite (flat_one _ b0).
  - destruct (Z.leb_spec 0 b0), (Z.leb_spec b0 n); cbn [andb].
    + rewrite (flat_one _ l0); [|intros x R N; apply H0; lia]. destruct (Z.leb_spec 0 l0), (Z.leb_spec l0 (n - b0)), (Z.leb_spec (b0 + l0) n); cbn [andb]; lia || reflexivity.
    + destruct (Z.leb_spec 0 l0), (Z.leb_spec (b0 + l0) n); cbn [andb]; lia || reflexivity.
    + destruct (Z.leb_spec 0 l0), (Z.leb_spec (b0 + l0) n); cbn [andb]; lia || reflexivity.
    + destruct (Z.leb_spec 0 l0), (Z.leb_spec (b0 + l0) n); cbn [andb]; lia || reflexivity.
  - intros b R N. apply flat_nil. intros l I. apply zrange_in in I. apply H0; [lia|lia|now left].
Qed.
(** a fixed length *)
Lemma sol_len l0 : 0 <= l0 -> (forall b l, 0 <= b <= n -> 0 <= l <= n - b -> l <> l0 -> try_sub name g b l = []) ->
  sub_solutions name g = flat_map (fun b => try_sub name g b l0) (zrange 0 (n - l0)).
Proof.
  intros Hl H0. unfold sub_solutions. destruct (Z_le_gt_dec l0 n) as [L|L].
  - rewrite (zrange_app 0 (n - l0) n) by lia. rewrite flat_map_app. rewrite (flat_nil _ (zrange (n - l0 + 1) n)).
    + rewrite app_nil_r. apply flat_ext. intros b I. apply zrange_in in I. rewrite (flat_one _ l0); [|intros; apply H0; lia].
      destruct (Z.leb_spec 0 l0), (Z.leb_spec l0 (n - b)); lia || reflexivity.
    + intros b I. apply zrange_in in I. apply flat_nil. intros l I2. apply zrange_in in I2. apply H0; lia.
  - rewrite (zrange_nil 0 (n - l0)) by lia. apply flat_nil. intros b I. apply zrange_in in I. apply flat_nil. intros l I2. apply zrange_in in I2. apply H0; lia.
Qed.
Lemma firstn_diff (x t : list Z) : firstn (length t) x = t -> (length t <= length x)%nat.
Proof. intros E. rewrite <- E at 1. rewrite firstn_length. lia. Qed.
Theorem Sub_Atom_ok fuel : n < 2 ^ 16 -> typed g -> (n + 1) * (n + 2) <= Z.of_nat fuel ->
  (forall v, sub g = Var v -> len g <> Var v) ->
  (forall t, sub g = Val (VAtm t) -> Z.of_nat (length t) < 2 ^ 16 /\
     (forall b v, before g = Val (VInt b) -> after g = Var v -> b <= n) /\
     (forall a v, after g = Val (VInt a) -> before g = Var v -> a + Z.of_nat (length t) <= n)) ->
  Sub_Atom fuel name g = Ret (sub_solutions name g).
Proof.
  intros Sh [Tb [Tl [Ta Ts]]] Hf Hv Ht. unfold Sub_Atom. rewrite plen_n by exact Sh. cbv zeta.
  destruct (sub g) as [v|x] eqn:Es.
  - specialize (Hv v eq_refl). destruct (before g) as [vb|xb] eqn:Eb; [|destruct (Tb xb eq_refl) as [b [-> Hb]]]; (destruct (len g) as [vl|xl] eqn:El; [|destruct (Tl xl eq_refl) as [l [-> Hl]]]);
      (destruct (after g) as [va|xa] eqn:Ea; [|destruct (Ta xa eq_refl) as [a [-> Ha]]]); cbn [fixed_int or0 bit Z.mul Z.add Pos.add Pos.mul].
    + (* nothing *) rewrite !Z.sub_0_r. destruct (Z.ltb_spec 0 0); [lia|]. destruct (Z.ltb_spec n 0); [lia|]. cbn [orb].
      pose proof (alt0 name g Sh v Es ltac:(congruence) ltac:(congruence) fuel 0 0 ltac:(lia) ltac:(lia) ltac:(lia) ltac:(nia)) as A. rewrite !Z.sub_0_r in A. rewrite A. f_equal. unfold sub_solutions. symmetry.
      match goal with |- flat_map ?f _ = _ => set (F := f) end. match goal with |- ?l = _ => replace l with (flat_map F (0 :: zrange (0 + 1) n)) by (now rewrite (zrange_cons 0 n) by lia) end. cbn [flat_map]. change (F 0) with (flat_map (fun l => try_sub name g 0 l) (zrange 0 (n - 0))). now rewrite Z.sub_0_r.
    + (* A *) rewrite !Z.sub_0_r. destruct (Z.ltb_spec 0 0); [lia|]. destruct (Z.ltb_spec a 0); [lia|]. cbn [orb]. rewrite orb_false_r.
      assert (Q : sub_solutions name g = flat_map (fun b => try_sub name g b (n - b - a)) (zrange 0 (n - a))).
      { unfold sub_solutions. destruct (Z_le_gt_dec a n) as [L|L].
        - rewrite (zrange_app 0 (n - a) n) by lia. rewrite flat_map_app. rewrite (flat_nil _ (zrange (n - a + 1) n)).
          + rewrite app_nil_r. apply flat_ext. intros b I. apply zrange_in in I. rewrite (flat_one _ (n - b - a)); [|intros; apply (a_no a); [exact Ea|lia]].
            destruct (Z.leb_spec 0 (n - b - a)), (Z.leb_spec (n - b - a) (n - b)); lia || reflexivity.
          + intros b I. apply zrange_in in I. apply flat_nil. intros l I2. apply zrange_in in I2. apply (a_no a); [exact Ea|lia].
        - rewrite (zrange_nil 0 (n - a)) by lia. apply flat_nil. intros b I. apply zrange_in in I. apply flat_nil. intros l I2. apply zrange_in in I2. apply (a_no a); [exact Ea|lia]. }
      rewrite Q. destruct (Z.ltb_spec (n - a) 0); [now rewrite zrange_nil by lia|].
      pose proof (alt1 name g Sh v Es ltac:(congruence) a Ha ltac:(congruence) fuel 0 ltac:(lia) ltac:(lia) ltac:(nia)) as A. rewrite !Z.sub_0_r in A. exact A.
    + (* L *) rewrite !Z.sub_0_r. destruct (Z.ltb_spec 0 0); [lia|]. destruct (Z.ltb_spec l 0); [lia|]. cbn [orb].
      rewrite (sol_len l Hl) by (intros; now apply (l_no l)). destruct (Z.ltb_spec (n - l) 0); [now rewrite zrange_nil by lia|].
      pose proof (alt2 name g Sh v Es ltac:(congruence) l Hl El fuel 0 ltac:(lia) ltac:(lia) ltac:(nia)) as A. rewrite !Z.sub_0_r in A. exact A.
    + (* L A *) rewrite (sol_point (n - l - a) l).
      2:{ intros b0 l0 R1 R2 N. destruct (Z.eq_dec l0 l) as [->|]; [|now apply (l_no l)]. apply (a_no a); [exact Ea|lia]. }
      destruct (Z.ltb_spec (n - l - a) 0), (Z.ltb_spec l 0), (Z.ltb_spec a 0), (Z.leb_spec 0 (n - l - a)), (Z.leb_spec 0 l), (Z.leb_spec (n - l - a + l) n); cbn [orb andb]; try lia; try reflexivity.
      destruct (Give_ok name g v Es ltac:(congruence) 3 (n - l - a) l ltac:(lia) ltac:(lia) ltac:(lia) ltac:(lia) ltac:(intros x E; congruence)) as [r [Er Ar]].
      replace (n - (n - l - a) - l) with a in Er by lia. rewrite Er. cbn [bind]. now rewrite Ar.
    + (* B *) assert (Q : sub_solutions name g = if (0 <=? b) && (b <=? n) then flat_map (try_sub name g b) (zrange 0 (n - b)) else []).
      { unfold sub_solutions. rewrite (flat_one _ b); [reflexivity|]. intros x R N. apply flat_nil. intros l I. apply (b_no b); auto. }
      rewrite Q. rewrite !Z.sub_0_r. destruct (Z.ltb_spec b 0), (Z.ltb_spec 0 0), (Z.ltb_spec (n - b) 0), (Z.leb_spec 0 b), (Z.leb_spec b n); cbn [orb andb]; try lia; try reflexivity.
      pose proof (alt4 name g Sh v Es ltac:(congruence) b Hb ltac:(congruence) fuel 0 ltac:(lia) ltac:(lia) ltac:(nia)) as A. rewrite !Z.sub_0_r in A. exact A.
    + (* B A *) rewrite (sol_point b (n - b - a)).
      2:{ intros b0 l0 R1 R2 N. destruct (Z.eq_dec b0 b) as [->|]; [|now apply (b_no b)]. apply (a_no a); [exact Ea|lia]. }
      destruct (Z.ltb_spec b 0), (Z.ltb_spec (n - b - a) 0), (Z.ltb_spec a 0), (Z.leb_spec 0 b), (Z.leb_spec 0 (n - b - a)), (Z.leb_spec (b + (n - b - a)) n); cbn [orb andb]; try lia; try reflexivity.
      destruct (Give_ok name g v Es ltac:(congruence) 5 b (n - b - a) ltac:(lia) ltac:(lia) ltac:(lia) ltac:(lia) ltac:(intros x E; congruence)) as [r [Er Ar]].
      replace (n - b - (n - b - a)) with a in Er by lia. rewrite Er. cbn [bind]. now rewrite Ar.
    + (* B L *) rewrite (sol_point b l).
      2:{ intros b0 l0 R1 R2 [N|N]; [now apply (b_no b)|now apply (l_no l)]. }
      destruct (Z.ltb_spec b 0), (Z.ltb_spec l 0), (Z.ltb_spec (n - b - l) 0), (Z.leb_spec 0 b), (Z.leb_spec 0 l), (Z.leb_spec (b + l) n); cbn [orb andb]; try lia; try reflexivity.
      destruct (Give_ok name g v Es ltac:(congruence) 6 b l ltac:(lia) ltac:(lia) ltac:(lia) ltac:(lia) ltac:(intros x E; congruence)) as [r [Er Ar]]. rewrite Er. cbn [bind]. now rewrite Ar.
    + (* B L A *) rewrite (sol_point b l).
      2:{ intros b0 l0 R1 R2 [N|N]; [now apply (b_no b)|now apply (l_no l)]. }
      destruct (Z.ltb_spec b 0), (Z.ltb_spec l 0), (Z.ltb_spec (n - b - l) 0), (Z.leb_spec 0 b), (Z.leb_spec 0 l), (Z.leb_spec (b + l) n); cbn [orb andb]; try lia; try reflexivity.
      destruct (Give_ok name g v Es ltac:(congruence) 7 b l ltac:(lia) ltac:(lia) ltac:(lia) ltac:(lia) ltac:(intros x E; congruence)) as [r [Er Ar]]. rewrite Er. cbn [bind]. now rewrite Ar.
  - destruct (Ts x eq_refl) as [t ->]. destruct (Ht t eq_refl) as [St [Hb1 Ha1]]. set (lt_ := Z.of_nat (length t)) in *. assert (Pt : plen t = lt_) by (unfold plen; apply Z.mod_small; unfold lt_ in *; lia).
    rewrite Pt. assert (Lno : forall b l, 0 <= b <= n -> 0 <= l <= n - b -> l <> lt_ -> try_sub name g b l = []) by (intros b l R1 R2 N; apply (len_no name g t Es); lia || assumption).
    destruct (Get (VInt lt_) (len g) []) as [e0|] eqn:E0.
    2:{ (* the length is fixed and wrong *) f_equal. symmetry. unfold sub_solutions. apply flat_nil. intros b Ib. apply zrange_in in Ib. apply flat_nil. intros l Il. apply zrange_in in Il.
        destruct (Z.eq_dec l lt_) as [->|]; [|apply Lno; lia]. destruct (len g) as [vl|xl] eqn:El; [discriminate|]. destruct (Tl xl eq_refl) as [l0 [-> _]]. cbn [Get] in E0.
        destruct (val_eqb (VInt lt_) (VInt l0)) eqn:Q; [discriminate|]. apply (l_no l0); [exact El|]. intros ->. rewrite (proj2 (val_eqb_eq _ _) eq_refl) in Q. discriminate. }
    assert (Point : forall b, (forall b', 0 <= b' <= n -> b' <> b -> try_sub name g b' lt_ = []) -> 0 <= b <= n ->
       (forall r, (part name b lt_ = t -> answers g r = try_sub name g b lt_) -> (do c <- strncmp_at name b t lt_; Ret (if c then answers g r else [])) = Ret (sub_solutions name g))).
    { intros b Hno Rb r Hr. rewrite (sol_point b lt_). 2:{ intros b' l' R1 R2 N. destruct (Z.eq_dec l' lt_) as [->|]; [|apply Lno; lia]. apply Hno; [lia|]. destruct N; congruence. }
      unfold strncmp_at. destruct (Z.eqb_spec lt_ 0) as [E|N0].
      - cbn [bind]. rewrite Hr; [|destruct t; [unfold part; rewrite E; reflexivity|unfold lt_ in E; cbn in E; lia]]. destruct (Z.leb_spec 0 b), (Z.leb_spec 0 lt_), (Z.leb_spec (b + lt_) n); cbn [andb]; lia || reflexivity.
      - rewrite at_off_ok by lia. cbn [bind]. fold (part name b lt_). unfold lt_ at 2. rewrite Nat2Z.id, firstn_all. destruct (seqb (part name b lt_) t) eqn:Q.
        + apply seqb_eq in Q. rewrite Hr by exact Q. assert (b + lt_ <= n). { unfold part in Q. unfold lt_ in Q. rewrite Nat2Z.id in Q. apply firstn_diff in Q. rewrite skipn_length in Q. unfold lt_. lia. }
          destruct (Z.leb_spec 0 b), (Z.leb_spec 0 lt_), (Z.leb_spec (b + lt_) n); cbn [andb]; lia || reflexivity.
        + f_equal. destruct ((0 <=? b) && (0 <=? lt_) && (b + lt_ <=? n)); [|reflexivity]. symmetry. apply (part_no name g t Es). intros E. apply seqb_eq in E. congruence. }
    destruct (before g) as [vb|xb] eqn:Eb; [|destruct (Tb xb eq_refl) as [b [-> Hb]]]; (destruct (after g) as [va|xa] eqn:Ea; [|destruct (Ta xa eq_refl) as [a [-> Ha]]]);
      cbn [fixed_int or0 bit Z.eqb Pos.eqb andb].
    + (* neither *) destruct (strstr_at_ok name 0 t ltac:(lia)) as [r [Er Hr]]. rewrite Er. cbn [bind]. fold lt_ in Hr. rewrite (sol_len lt_) by (unfold lt_; lia || exact Lno). destruct r as [j|].
      * destruct Hr as [A1 [A2 [A3 A4]]]. destruct (Z.ltb_spec j 0), (Z.ltb_spec lt_ 0), (Z.ltb_spec (n - j - lt_) 0); cbn [orb]; try (unfold lt_ in *; lia).
        unfold lt_ at 1 2. rewrite (alt8 name g Sh t Es e0 E0 fuel j) by (fold lt_; nia || assumption). fold lt_. f_equal. rewrite (zrange_app 0 (j - 1) (n - lt_)) by lia. rewrite flat_map_app.
        rewrite (flat_nil _ (zrange 0 (j - 1))); [now replace (j - 1 + 1) with j by lia|]. intros k I. apply zrange_in in I. apply (part_no name g t Es). apply A4. lia.
      * f_equal. symmetry. apply flat_nil. intros k I. apply zrange_in in I. apply (part_no name g t Es). apply Hr. unfold lt_ in *. lia.
    + (* A *) specialize (Ha1 a vb eq_refl eq_refl). apply Point.
      * intros b' R N. apply (a_no a); [exact Ea|lia].
      * unfold lt_ in *. lia.
      * intros Ep. pose proof (answers_sub name g t Es e0 (n - lt_ - a) E0 Ep) as A. fold lt_ in A. rewrite Eb, Ea in A. rewrite <- A. f_equal. destruct (Get (VInt (n - lt_ - a)) (Var vb) e0) as [e|]; [|reflexivity].
        cbn [Get]. replace (n - (n - lt_ - a) - lt_) with a by lia. now rewrite (proj2 (val_eqb_eq _ _) eq_refl).
    + (* B *) specialize (Hb1 b va eq_refl eq_refl). apply Point.
      * intros b' R N. apply (b_no b); [exact Eb|exact N].
      * lia.
      * intros Ep. pose proof (answers_sub name g t Es e0 b E0 Ep) as A. fold lt_ in A. rewrite Eb, Ea in A. cbn [Get] in A. rewrite (proj2 (val_eqb_eq _ _) eq_refl) in A. exact A.
    + (* B A *) destruct (Z.eqb_spec n (b + lt_ + a)) as [E|N]; cbn [negb].
      * apply Point.
        -- intros b' R N. apply (b_no b); [exact Eb|exact N].
        -- unfold lt_ in *. lia.
        -- intros Ep. pose proof (answers_sub name g t Es e0 b E0 Ep) as A. fold lt_ in A. rewrite Eb, Ea in A. cbn [Get] in A |- *. rewrite (proj2 (val_eqb_eq (VInt b) _) eq_refl) in A. exact A.
      * f_equal. symmetry. rewrite (sol_point b lt_). 2:{ intros b' l' R1 R2 N'. destruct (Z.eq_dec l' lt_) as [->|]; [|apply Lno; lia]. apply (b_no b); [exact Eb|destruct N'; congruence]. }
        destruct ((0 <=? b) && (0 <=? lt_) && (b + lt_ <=? n)); [|reflexivity]. apply (a_no a); [exact Ea|lia].
Qed.
End Whole.

(** ** atom_concat *)
Lemma flat_one_n {B} (f : nat -> list B) i0 : forall k a, (forall i, (a <= i < a + k)%nat -> i <> i0 -> f i = []) ->
  flat_map f (seq a k) = if (a <=? i0)%nat && (i0 <? a + k)%nat then f i0 else [].
Proof.
  induction k as [|k IH]; intros a H0; cbn [seq flat_map].
  - destruct (Nat.leb_spec a i0), (Nat.ltb_spec i0 (a + 0)); cbn [andb]; lia || reflexivity.
  - rewrite IH by (intros; apply H0; lia). destruct (Nat.eq_dec a i0) as [->|N].
    + destruct (Nat.leb_spec (S i0) i0), (Nat.leb_spec i0 i0), (Nat.ltb_spec i0 (i0 + S k)); cbn [andb]; try lia. apply app_nil_r.
    + rewrite (H0 a) by lia. cbn [app]. destruct (Nat.leb_spec (S a) i0), (Nat.leb_spec a i0), (Nat.ltb_spec i0 (S a + k)), (Nat.ltb_spec i0 (a + S k)); cbn [andb]; lia || reflexivity.
Qed.
Section Concat.
Variables t1 t2 t3 : arg.
Definition three (s1 s2 : list Z) : list (arg * val) := [(t1, VAtm s1); (t2, VAtm s2); (t3, VAtm (s1 ++ s2))].
Lemma split_no s1 s2 t x : In (t, x) (three s1 s2) -> (exists y, t = Val y /\ y <> x) -> try_split s1 s2 t1 t2 t3 = [].
Proof.
  intros I [y [-> N]]. unfold try_split. destruct (consistent _) eqn:E; [|reflexivity]. apply consistent_iff in E. specialize (E _ _ I I). unfold agree in E. cbn [fst snd] in E. apply val_eqb_eq in E. congruence.
Qed.
Lemma answers3_ok ps s1 s2 : (forall p, In p ps -> In p (three s1 s2)) -> (forall t x, In (t, x) (three s1 s2) -> In (t, x) ps \/ t = Val x) ->
  answers3 (Gets ps []) t1 t2 t3 = try_split s1 s2 t1 t2 t3.
Proof.
  intros I1 I2. pose proof (Gets_ok ps) as G. unfold try_split. destruct (Gets ps []) as [e|]; cbn [answers3].
  - destruct G as [C D]. assert (Hd : forall t x, In (t, x) (three s1 s2) -> deref_arg e t = Some x) by (intros t x I; destruct (I2 t x I) as [J| ->]; [auto|reflexivity]).
    unfold answer3. rewrite (Hd t1 (VAtm s1)), (Hd t2 (VAtm s2)), (Hd t3 (VAtm (s1 ++ s2))) by (cbn; tauto).
    assert (Cn : cons_ (three s1 s2)).
    { intros [t x] [u y] Ip Iq. destruct (I2 _ _ Ip) as [Jp| ->].
      - destruct (I2 _ _ Iq) as [Jq| ->]; [exact (C _ _ Jp Jq)|]. destruct t as [v|w]; [reflexivity|]. specialize (C _ _ Jp Jp). exact C.
      - unfold agree. cbn [fst snd]. now apply val_eqb_eq. }
    apply consistent_iff in Cn. unfold three in Cn. now rewrite Cn.
  - destruct (consistent _) eqn:E; [|reflexivity]. apply consistent_iff in E. exfalso. apply G. intros p q Ip Iq. apply E; apply I1; assumption.
Qed.
Definition ctyped (t : arg) : Prop := forall x, t = Val x -> exists s, x = VAtm s /\ Z.of_nat (length s) < 2 ^ 16.
Lemma plen_s s : Z.of_nat (length s) < 2 ^ 16 -> plen s = Z.of_nat (length s).
Proof. intros. unfold plen. apply Z.mod_small. lia. Qed.
Lemma alt_concat s3 v1 v2 : t1 = Var v1 -> t2 = Var v2 -> t3 = Val (VAtm s3) -> Z.of_nat (length s3) < 2 ^ 16 -> forall fuel i, (i <= length s3)%nat -> (length s3 - i < fuel)%nat ->
  Atom_Concat_Alt fuel s3 t1 t2 t3 (Z.of_nat i) = Ret (flat_map (fun i => try_split (firstn i s3) (skipn i s3) t1 t2 t3) (seq i (S (length s3 - i)))).
Proof.
  intros E1 E2 E3 Sh. induction fuel as [|f IH]; intros i Hi Hf; [lia|]. cbn [Atom_Concat_Alt]. rewrite at_off_ok by lia. cbn [bind]. rewrite !Nat2Z.id.
  assert (A : answers3 (match Get (VAtm (firstn i s3)) t1 [] with Some e => Get (VAtm (skipn i s3)) t2 e | None => None end) t1 t2 t3 = try_split (firstn i s3) (skipn i s3) t1 t2 t3).
  { rewrite <- (answers3_ok [(t1, VAtm (firstn i s3)); (t2, VAtm (skipn i s3))]).
    - cbn [Gets]. destruct (Get (VAtm (firstn i s3)) t1 []) as [e|]; [|reflexivity]. destruct (Get (VAtm (skipn i s3)) t2 e); reflexivity.
    - unfold three. cbn [In]. tauto.
    - unfold three. rewrite firstn_skipn. cbn [In]. intros t x [Q|[Q|[Q|[]]]]; [tauto|tauto|]. right. inversion Q; subst. congruence. }
  rewrite plen_s by exact Sh. destruct (Get (VAtm (firstn i s3)) t1 []) as [e|] eqn:G; [|rewrite E1 in G; discriminate]. destruct (Z.ltb_spec (Z.of_nat (length s3) - Z.of_nat i) 0); [lia|].
  unfold strcpy. rewrite skipn_length. match goal with |- context [if ?b then Ret (skipn _ _) else UB] => replace b with true by (symmetry; apply Z.ltb_lt; lia) end. cbn [bind]. rewrite A. cbn [seq flat_map].
  destruct (skipn i s3) as [|c r] eqn:Ek.
  - assert (length s3 - i = 0)%nat by (rewrite <- skipn_length, Ek; reflexivity). cbn [bind]. match goal with |- context [seq _ ?k] => replace k with O by lia end. reflexivity.
  - assert (0 < length s3 - i)%nat by (rewrite <- skipn_length, Ek; cbn; lia). replace (Z.of_nat i + 1) with (Z.of_nat (S i)) by lia. rewrite IH by lia. cbn [bind]. rewrite <- Ek. do 2 f_equal. match goal with |- _ = flat_map _ (seq _ ?k) => replace k with (S (length s3 - S i)) by lia end. reflexivity.
Qed.
Lemma strncmp_ok s b t l : 0 <= b <= Z.of_nat (length s) -> 0 <= l -> strncmp_at s b t l = Ret (seqb (part s b l) (firstn (Z.to_nat l) t)).
Proof.
  intros Hb Hl. unfold strncmp_at. destruct (Z.eqb_spec l 0) as [->|N].
  - reflexivity.
  - rewrite at_off_ok by lia. reflexivity.
Qed.
Lemma first_len (s s3 : list Z) i : (i <= length s3)%nat -> firstn i s3 = s -> i = length s.
Proof. intros L <-. rewrite firstn_length. lia. Qed.
Theorem Atom_Concat_ok fuel : ctyped t1 -> ctyped t2 -> ctyped t3 -> (forall s, t3 = Val (VAtm s) -> (length s < fuel)%nat) ->
  Atom_Concat fuel t1 t2 t3 = Ret (match concat_solutions t1 t2 t3 with Some l => Answers l | None => Instantiation end).
Proof.
  intros T1 T2 T3 Hf. unfold Atom_Concat, concat_solutions.
  destruct t1 as [v1|x1] eqn:E1; [|destruct (T1 x1 eq_refl) as [s1 [-> L1]]]; (destruct t2 as [v2|x2] eqn:E2; [|destruct (T2 x2 eq_refl) as [s2 [-> L2]]]);
    (destruct t3 as [v3|x3] eqn:E3; [|destruct (T3 x3 eq_refl) as [s3 [-> L3]]]); try reflexivity; rewrite <- ?E1, <- ?E2, <- ?E3; rewrite ?plen_s by assumption.
  - (* - - + *) specialize (Hf s3 eq_refl). destruct (Nat.eqb_spec v1 v2) as [->|N].
    + (* the same variable *)
      assert (Q : forall i, (i <= length s3)%nat -> firstn i s3 <> skipn i s3 -> try_split (firstn i s3) (skipn i s3) t1 t2 t3 = []).
      { intros i Hi Ne. unfold try_split. destruct (consistent _) eqn:C; [|reflexivity]. apply consistent_iff in C. exfalso. apply Ne. specialize (C (t1, VAtm (firstn i s3)) (t2, VAtm (skipn i s3)) ltac:(cbn; tauto) ltac:(cbn; tauto)).
        rewrite E1, E2 in C. unfold agree in C. cbn [fst snd] in C. rewrite Nat.eqb_refl in C. apply val_eqb_eq in C. congruence. }
      assert (Hlen : forall i, (i <= length s3)%nat -> firstn i s3 = skipn i s3 -> (length s3 = 2 * i)%nat).
      { intros i Hi E. apply (f_equal (@length Z)) in E. rewrite firstn_length, skipn_length in E. lia. }
      set (h := (length s3 / 2)%nat). pose proof (Nat.div_mod (length s3) 2 ltac:(lia)) as Dm. fold h in Dm. pose proof (Nat.mod_upper_bound (length s3) 2 ltac:(lia)) as Mb.
      assert (Zr : Z.rem (Z.of_nat (length s3)) 2 = Z.of_nat (length s3 mod 2)) by (rewrite Z.rem_mod_nonneg by lia; rewrite Nat2Z.inj_mod; reflexivity).
      assert (Zq : Z.quot (Z.of_nat (length s3)) 2 = Z.of_nat h) by (rewrite Z.quot_div_nonneg by lia; unfold h; rewrite Nat2Z.inj_div; reflexivity).
      rewrite Zr. rewrite (flat_one_n _ h).
      2:{ intros i Hi Ni. apply Q; [lia|]. intros E. apply Hlen in E; lia. }
      destruct (Nat.leb_spec 0 h), (Nat.ltb_spec h (0 + S (length s3))); cbn [andb]; try lia.
      destruct (Z.eqb_spec (Z.of_nat (length s3 mod 2)) 0) as [Ev|Od]; cbn [negb].
      * rewrite Zq. rewrite at_off_ok by lia. cbn [bind]. rewrite strncmp_ok by lia. cbn [bind]. unfold part. rewrite !Nat2Z.id. change (Z.to_nat 0) with O. cbn [skipn].
        rewrite (firstn_all2 (skipn h s3)) by (rewrite skipn_length; lia). destruct (seqb (firstn h s3) (skipn h s3)) eqn:S0; cbn [negb].
        -- apply seqb_eq in S0. do 2 f_equal. rewrite <- (answers3_ok [(t1, VAtm (skipn h s3)); (t2, VAtm (skipn h s3))]).
           ++ cbn [Gets]. destruct (Get (VAtm (skipn h s3)) t1 []) as [e|]; [|reflexivity]. destruct (Get (VAtm (skipn h s3)) t2 e); reflexivity.
           ++ unfold three. rewrite S0. cbn [In]. tauto.
           ++ unfold three. rewrite firstn_skipn, S0. cbn [In]. intros t x [P|[P|[P|[]]]]; [tauto|tauto|]. right. injection P as <- <-. congruence.
        -- do 2 f_equal. symmetry. apply Q; [lia|]. intros E. apply seqb_eq in E. congruence.
      * do 2 f_equal. symmetry. apply Q; [lia|]. intros E. apply Hlen in E; lia.
    + assert (F : answers3 (match Get (VAtm []) t1 [] with Some e => Get (VAtm s3) t2 e | None => None end) t1 t2 t3 = try_split (firstn 0 s3) (skipn 0 s3) t1 t2 t3).
      { rewrite <- (answers3_ok [(t1, VAtm []); (t2, VAtm s3)]).
        - cbn [Gets]. destruct (Get (VAtm []) t1 []) as [e|]; [|reflexivity]. destruct (Get (VAtm s3) t2 e); reflexivity.
        - unfold three. cbn [In firstn skipn]. tauto.
        - unfold three. cbn [In firstn skipn app]. intros t x [P|[P|[P|[]]]]; [tauto|tauto|]. right. injection P as <- <-. congruence. }
      rewrite F. cbn [seq flat_map]. destruct (Z.ltb_spec 0 (Z.of_nat (length s3))).
      * pose proof (alt_concat s3 v1 v2 E1 E2 E3 L3 fuel 1 ltac:(lia) ltac:(lia)) as A. change (Z.of_nat 1) with 1 in A. rewrite A. cbn [bind]. replace (S (length s3 - 1)) with (length s3) by lia. reflexivity.
      * cbn [bind]. replace (length s3) with O by lia. reflexivity.
  - (* - + + *) destruct (Z.ltb_spec (Z.of_nat (length s3) - Z.of_nat (length s2)) 0) as [Lt|Ge].
    + do 2 f_equal. symmetry. apply flat_nil. intros i I. apply in_seq in I. apply (split_no _ _ t2 (VAtm (skipn i s3))); [unfold three; cbn; tauto|]. exists (VAtm s2). split; [exact E2|]. intros E. assert (E' : s2 = skipn i s3) by congruence. apply (f_equal (@length Z)) in E'. rewrite skipn_length in E'. lia.
    + set (k := (length s3 - length s2)%nat). rewrite (flat_one_n _ k).
      2:{ intros i Hi Ni. apply (split_no _ _ t2 (VAtm (skipn i s3))); [unfold three; cbn; tauto|]. exists (VAtm s2). split; [exact E2|]. intros E. assert (E' : s2 = skipn i s3) by congruence. apply (f_equal (@length Z)) in E'. rewrite skipn_length in E'. lia. }
      destruct (Nat.leb_spec 0 k), (Nat.ltb_spec k (0 + S (length s3))); cbn [andb]; try lia.
      replace (Z.of_nat (length s3) - Z.of_nat (length s2)) with (Z.of_nat k) by lia. rewrite strncmp_ok by lia. cbn [bind]. unfold part. rewrite !Nat2Z.id, firstn_all. rewrite (firstn_all2 (skipn k s3)) by (rewrite skipn_length; lia).
      destruct (seqb (skipn k s3) s2) eqn:S0; cbn [negb].
      * apply seqb_eq in S0. do 2 f_equal. rewrite <- (answers3_ok [(t1, VAtm (firstn k s3))]).
        -- cbn [Gets]. destruct (Get (VAtm (firstn k s3)) t1 []); reflexivity.
        -- unfold three. cbn [In]. tauto.
        -- unfold three. rewrite firstn_skipn. cbn [In]. intros t x [P|[P|[P|[]]]]; [tauto| |]; right; injection P as <- <-; congruence.
      * do 2 f_equal. symmetry. apply (split_no _ _ t2 (VAtm (skipn k s3))); [unfold three; cbn; tauto|]. exists (VAtm s2). split; [exact E2|]. intros E. assert (E' : skipn k s3 = s2) by congruence. apply seqb_eq in E'. congruence.
  - (* + - + *) destruct (Z.ltb_spec (Z.of_nat (length s3) - Z.of_nat (length s1)) 0) as [Lt|Ge].
    + do 2 f_equal. symmetry. apply flat_nil. intros i I. apply in_seq in I. apply (split_no _ _ t1 (VAtm (firstn i s3))); [unfold three; cbn; tauto|]. exists (VAtm s1). split; [exact E1|]. intros E. assert (E' : firstn i s3 = s1) by congruence. apply first_len in E'; lia.
    + set (k := length s1) in *. rewrite (flat_one_n _ k).
      2:{ intros i Hi Ni. apply (split_no _ _ t1 (VAtm (firstn i s3))); [unfold three; cbn; tauto|]. exists (VAtm s1). split; [exact E1|]. intros E. assert (E' : firstn i s3 = s1) by congruence. apply first_len in E'; lia. }
      destruct (Nat.leb_spec 0 k), (Nat.ltb_spec k (0 + S (length s3))); cbn [andb]; try lia.
      rewrite strncmp_ok by lia. cbn [bind]. unfold part. change (Z.to_nat 0) with O. cbn [skipn]. rewrite !Nat2Z.id. unfold k at 2. rewrite firstn_all.
      destruct (seqb (firstn k s3) s1) eqn:S0; cbn [negb].
      * apply seqb_eq in S0. rewrite at_off_ok by lia. cbn [bind]. rewrite Nat2Z.id. unfold strcpy. rewrite skipn_length. match goal with |- context [if ?b then Ret (skipn _ _) else UB] => replace b with true by (symmetry; apply Z.ltb_lt; lia) end. cbn [bind].
        do 2 f_equal. rewrite <- (answers3_ok [(t2, VAtm (skipn k s3))]).
        -- cbn [Gets]. destruct (Get (VAtm (skipn k s3)) t2 []); reflexivity.
        -- unfold three. cbn [In]. tauto.
        -- unfold three. rewrite firstn_skipn. cbn [In]. intros t x [P|[P|[P|[]]]]; [|tauto|]; right; injection P as <- <-; congruence.
      * do 2 f_equal. symmetry. apply (split_no _ _ t1 (VAtm (firstn k s3))); [unfold three; cbn; tauto|]. exists (VAtm s1). split; [exact E1|]. intros E. assert (E' : firstn k s3 = s1) by congruence. apply seqb_eq in E'. congruence.
  - (* + + - *) assert (A : answers3 (Get (VAtm (s1 ++ s2)) t3 []) t1 t2 t3 = try_split s1 s2 t1 t2 t3).
    { rewrite <- (answers3_ok [(t3, VAtm (s1 ++ s2))]).
      - cbn [Gets]. destruct (Get (VAtm (s1 ++ s2)) t3 []); reflexivity.
      - unfold three. cbn [In]. tauto.
      - unfold three. cbn [In]. intros t x [P|[P|[P|[]]]]; [| |tauto]; right; injection P as <- <-; congruence. }
    unfold strcpy. destruct (Z.ltb_spec (Z.of_nat (length s1)) (Z.of_nat (length s1) + Z.of_nat (length s2) + 1)); [|lia]. cbn [bind].
    destruct (Z.ltb_spec (Z.of_nat (length s2)) (Z.of_nat (length s1) + Z.of_nat (length s2) + 1 - Z.of_nat (length s1))); [|lia]. cbn [bind]. rewrite Nat2Z.id, firstn_all. now rewrite A.
  - (* + + + *) assert (A : answers3 (Get (VAtm (s1 ++ s2)) t3 []) t1 t2 t3 = try_split s1 s2 t1 t2 t3).
    { rewrite <- (answers3_ok [(t3, VAtm (s1 ++ s2))]).
      - cbn [Gets]. destruct (Get (VAtm (s1 ++ s2)) t3 []); reflexivity.
      - unfold three. cbn [In]. tauto.
      - unfold three. cbn [In]. intros t x [P|[P|[P|[]]]]; [| |tauto]; right; injection P as <- <-; congruence. }
    unfold strcpy. destruct (Z.ltb_spec (Z.of_nat (length s1)) (Z.of_nat (length s1) + Z.of_nat (length s2) + 1)); [|lia]. cbn [bind].
    destruct (Z.ltb_spec (Z.of_nat (length s2)) (Z.of_nat (length s1) + Z.of_nat (length s2) + 1 - Z.of_nat (length s1))); [|lia]. cbn [bind]. rewrite Nat2Z.id, firstn_all. rewrite A. do 2 f_equal.
    set (k := length s1). rewrite (flat_one_n _ k).
    2:{ intros i Hi Ni. apply (split_no _ _ t1 (VAtm (firstn i s3))); [unfold three; cbn; tauto|]. exists (VAtm s1). split; [exact E1|]. intros E. assert (E' : firstn i s3 = s1) by congruence. apply first_len in E'; lia. }
    destruct (list_eq_dec Z.eq_dec s3 (s1 ++ s2)) as [->|N].
    + destruct (Nat.leb_spec 0 k), (Nat.ltb_spec k (0 + S (length (s1 ++ s2)))); cbn [andb]; try (rewrite app_length in *; lia). rewrite firstn_app, skipn_app. unfold k. rewrite Nat.sub_diag, firstn_all, skipn_all. cbn [firstn skipn app]. now rewrite app_nil_r.
    + rewrite (split_no s1 s2 t3 (VAtm (s1 ++ s2))); [|unfold three; cbn; tauto|exists (VAtm s3); split; [exact E3|congruence]].
      destruct ((0 <=? k)%nat && (k <? 0 + S (length s3))%nat); [|reflexivity]. destruct (list_eq_dec Z.eq_dec (firstn k s3) s1) as [Ea|Na].
      * symmetry. apply (split_no _ _ t2 (VAtm (skipn k s3))); [unfold three; cbn; tauto|]. exists (VAtm s2). split; [exact E2|]. intros E. assert (E' : skipn k s3 = s2) by congruence. apply N. rewrite <- (firstn_skipn k s3). congruence.
      * symmetry. apply (split_no _ _ t1 (VAtm (firstn k s3))); [unfold three; cbn; tauto|]. exists (VAtm s1). split; [exact E1|congruence].
Qed.
End Concat.

(** ** What the specifications enumerate *)
Lemma solutions_iff name g b l a s : In (b, l, a, s) (sub_solutions name g) <->
  exists x y z, name = x ++ y ++ z /\ b = VInt (Z.of_nat (length x)) /\ l = VInt (Z.of_nat (length y)) /\ a = VInt (Z.of_nat (length z)) /\ s = VAtm y /\
    consistent [(before g, b); (len g, l); (after g, a); (sub g, s)] = true.
Proof.
  unfold sub_solutions. cbv zeta. rewrite in_flat_map. split.
  - intros [b0 [Ib I]]. apply zrange_in in Ib. apply in_flat_map in I. destruct I as [l0 [Il I]]. apply zrange_in in Il. unfold try_sub in I. cbv zeta in I. destruct (consistent _) eqn:C; [|destruct I]. destruct I as [E|[]]. inversion E; subst.
    exists (firstn (Z.to_nat b0) name), (part name b0 l0), (skipn (Z.to_nat l0) (skipn (Z.to_nat b0) name)).
    assert (Lx : length (firstn (Z.to_nat b0) name) = Z.to_nat b0) by (rewrite firstn_length; lia).
    assert (Ly : length (part name b0 l0) = Z.to_nat l0) by (unfold part; rewrite firstn_length, skipn_length; lia).
    assert (Lz : Z.of_nat (length (skipn (Z.to_nat l0) (skipn (Z.to_nat b0) name))) = Z.of_nat (length name) - b0 - l0) by (rewrite !skipn_length; lia).
    rewrite Lx, Ly, Lz, !Z2Nat.id by lia. unfold part at 1. rewrite !firstn_skipn. repeat split; auto.
  - intros [x [y [z [-> [-> [-> [-> [-> C]]]]]]]]. rewrite !app_length. exists (Z.of_nat (length x)). split; [apply zrange_in; lia|]. apply in_flat_map. exists (Z.of_nat (length y)). split; [apply zrange_in; lia|].
    unfold try_sub. cbv zeta. assert (P : part (x ++ y ++ z) (Z.of_nat (length x)) (Z.of_nat (length y)) = y).
    { unfold part. rewrite !Nat2Z.id. rewrite skipn_app, Nat.sub_diag, skipn_all. cbn [skipn app]. rewrite firstn_app, Nat.sub_diag, firstn_all. cbn [firstn]. apply app_nil_r. }
    rewrite P. replace (Z.of_nat (length (x ++ y ++ z)) - Z.of_nat (length x) - Z.of_nat (length y)) with (Z.of_nat (length z)) by (rewrite !app_length; lia). rewrite C. now left.
Qed.
Lemma flat_sorted {A B} (R : A -> A -> Prop) (Q : B -> B -> Prop) (f : A -> list B) l : StronglySorted R l -> (forall x, In x l -> StronglySorted Q (f x)) ->
  (forall x y p q, R x y -> In p (f x) -> In q (f y) -> Q p q) -> StronglySorted Q (flat_map f l).
Proof.
  intros S0 H1 H2. induction S0 as [|x l S0 IH F]; cbn [flat_map]; [constructor|].
  assert (IH' : StronglySorted Q (flat_map f l)) by (apply IH; intros; apply H1; now right). specialize (H1 x (or_introl eq_refl)).
  assert (G : forall p q, In p (f x) -> In q (flat_map f l) -> Q p q).
  { intros p q Ip Iq. apply in_flat_map in Iq. destruct Iq as [y [Iy Iq]]. rewrite Forall_forall in F. eauto. }
  clear IH. induction (f x) as [|p k IHk]; [exact IH'|]. cbn [app]. inversion H1; subst. constructor.
  - apply IHk; [assumption|]. intros p' q Ip Iq. apply G; [now right|exact Iq].
  - apply Forall_app. split; [assumption|]. apply Forall_forall. intros q Iq. apply G; [now left|exact Iq].
Qed.
Lemma seq_sorted k : forall a, StronglySorted lt (seq a k).
Proof. induction k as [|k IH]; intros a; cbn [seq]; constructor; [apply IH|]. apply Forall_forall. intros x I. apply in_seq in I. lia. Qed.
Lemma zrange_sorted lo hi : StronglySorted Z.lt (zrange lo hi).
Proof.
  unfold zrange. generalize (Z.to_nat (hi - lo + 1)). intros k. assert (G := seq_sorted k 0). induction G as [|x l S0 IH F]; cbn [map]; constructor; [exact IH|].
  apply Forall_forall. intros y I. apply in_map_iff in I. destruct I as [z [<- I]]. rewrite Forall_forall in F. specialize (F z I). lia.
Qed.
Lemma try_in name g b l p : In p (try_sub name g b l) -> p = (VInt b, VInt l, VInt (Z.of_nat (length name) - b - l), VAtm (part name b l)).
Proof. unfold try_sub. cbv zeta. destruct (consistent _); cbn [In]; [intros [<-|[]]; reflexivity|intros []]. Qed.
Lemma solutions_sorted name g : StronglySorted (fun p q => match p, q with
    | (VInt b, VInt l, _, _), (VInt b', VInt l', _, _) => b < b' \/ b = b' /\ l < l' | _, _ => False end) (sub_solutions name g).
Proof.
  unfold sub_solutions. cbv zeta. apply (flat_sorted Z.lt); [apply zrange_sorted| |].
  - intros b _. apply (flat_sorted Z.lt); [apply zrange_sorted| |].
    + intros l _. unfold try_sub. cbv zeta. destruct (consistent _); repeat constructor.
    + intros l l' p q L Ip Iq. apply try_in in Ip, Iq. subst. right. auto.
  - intros b b' p q L Ip Iq. apply in_flat_map in Ip, Iq. destruct Ip as [l [_ Ip]], Iq as [l' [_ Iq]]. apply try_in in Ip, Iq. subst. now left.
Qed.
Lemma long_refuted : exists name g, typed g /\ (forall fuel, Sub_Atom fuel name g = Ret []) /\ In (VInt 1, VInt 0, VInt 65535, VAtm []) (sub_solutions name g).
Proof.
  assert (E : exists name : list Z, Z.of_nat (length name) = 65536) by (exists (repeat 97 (Z.to_nat 65536)); rewrite repeat_length; apply Z2Nat.id; lia).
  destruct E as [name E]. exists name, (Bla (Val (VInt 1)) (Val (VInt 0)) (Var 0) (Var 1)). split; [|split].
  - unfold typed. cbn. repeat split; intros x Q; try discriminate; inversion Q; subst; eexists; (split; [reflexivity|lia]).
  - intros fuel. unfold Sub_Atom. unfold plen. rewrite E. reflexivity.
  - apply solutions_iff. destruct name as [|c name]; [cbn in E; discriminate|]. exists [c], [], name. cbn [app length before len after sub]. repeat split; try reflexivity. cbn [length] in E. f_equal. lia.
Qed.
Lemma concat_long : exists s1 s2, Z.of_nat (length s1) = 65536 /\ forall fuel, Atom_Concat fuel (Val (VAtm s1)) (Val (VAtm s2)) (Var 0) = UB.
Proof.
  assert (E : exists name : list Z, Z.of_nat (length name) = 65536) by (exists (repeat 97 (Z.to_nat 65536)); rewrite repeat_length; apply Z2Nat.id; lia).
  destruct E as [name E]. exists name, []. split; [exact E|]. intros fuel. unfold Atom_Concat, plen. rewrite E. unfold strcpy. rewrite E. reflexivity.
Qed.
Lemma split_in s1 s2 t1 t2 t3 p : In p (try_split s1 s2 t1 t2 t3) <-> p = (VAtm s1, VAtm s2, VAtm (s1 ++ s2)) /\ consistent [(t1, VAtm s1); (t2, VAtm s2); (t3, VAtm (s1 ++ s2))] = true.
Proof. unfold try_split. destruct (consistent _); cbn [In]; split; intuition congruence. Qed.
Lemma consistent_fixed t x l : In (Val t, x) l -> consistent l = true -> t = x.
Proof. intros I C. apply consistent_iff in C. specialize (C _ _ I I). unfold agree in C. cbn [fst snd] in C. now apply val_eqb_eq in C. Qed.
Lemma concat_spec t1 t2 t3 l : ctyped t1 -> ctyped t2 -> ctyped t3 -> concat_solutions t1 t2 t3 = Some l ->
  (forall x y z, In (x, y, z) l <-> exists s1 s2, x = VAtm s1 /\ y = VAtm s2 /\ z = VAtm (s1 ++ s2) /\ consistent [(t1, x); (t2, y); (t3, z)] = true) /\
  StronglySorted (fun p q => match p, q with (VAtm s, _, _), (VAtm s', _, _) => (length s < length s')%nat | _, _ => False end) l.
Proof.
  intros T1 T2 T3 E.
  assert (K : (exists s3, t3 = Val (VAtm s3) /\ l = flat_map (fun i => try_split (firstn i s3) (skipn i s3) t1 t2 t3) (seq 0 (S (length s3)))) \/
    (exists s1 s2, t1 = Val (VAtm s1) /\ t2 = Val (VAtm s2) /\ l = try_split s1 s2 t1 t2 t3)).
  { destruct t3 as [v3|x3]; [|destruct (T3 x3 eq_refl) as [s3 [-> L3]]].
    - right. destruct t1 as [v1|[|s1]]; [discriminate| |]; [discriminate|]. destruct t2 as [v2|[|s2]]; [discriminate| |]; [discriminate|]. exists s1, s2. repeat split. cbn [concat_solutions] in E. congruence.
    - left. exists s3. split; [reflexivity|]. unfold concat_solutions in E. destruct t1 as [v1|[|s1]], t2 as [v2|[|s2]]; congruence. }
  destruct K as [[s3 [E3 ->]]|[s1 [s2 [E1 [E2 ->]]]]].
  - split.
    + intros x y z. rewrite in_flat_map. split.
      * intros [i [I J]]. apply split_in in J. destruct J as [J C]. inversion J; subst x y z. exists (firstn i s3), (skipn i s3). auto.
      * intros [s1 [s2 [-> [-> [-> C]]]]]. assert (Q : VAtm s3 = VAtm (s1 ++ s2)) by (apply (consistent_fixed _ _ [(t1, VAtm s1); (t2, VAtm s2); (t3, VAtm (s1 ++ s2))]); [rewrite E3; cbn; tauto|exact C]).
        assert (Q' : s3 = s1 ++ s2) by congruence. rewrite Q'. exists (length s1). split; [apply in_seq; rewrite app_length; lia|]. rewrite firstn_app, skipn_app, Nat.sub_diag, firstn_all, skipn_all. cbn [firstn skipn app]. rewrite app_nil_r. apply split_in. auto.
    + apply (flat_sorted (fun i j => i < j <= length s3)%nat).
      * clear E. generalize (seq_sorted (S (length s3)) 0). assert (B : forall i, In i (seq 0 (S (length s3))) -> (i <= length s3)%nat) by (intros i I; apply in_seq in I; lia). induction (seq 0 (S (length s3))) as [|i k IH]; intros S0; [constructor|]. apply StronglySorted_inv in S0. destruct S0 as [S0 S1]. constructor.
        -- apply IH; [|exact S0]. intros j J. apply B. now right.
        -- rewrite Forall_forall in *. intros j J. split; [auto|]. apply B. now right.
      * intros i _. unfold try_split. destruct (consistent _); repeat constructor.
      * intros i j p q Lij Ip Iq. apply split_in in Ip, Iq. destruct Ip as [-> _], Iq as [-> _]. rewrite !firstn_length. lia.
  - split.
    + intros x y z. rewrite split_in. split.
      * intros [J C]. inversion J; subst x y z. exists s1, s2. auto.
      * intros [a [b [-> [-> [-> C]]]]]. assert (Q1 : VAtm s1 = VAtm a) by (apply (consistent_fixed _ _ [(t1, VAtm a); (t2, VAtm b); (t3, VAtm (a ++ b))]); [rewrite E1; cbn; tauto|exact C]).
        assert (Q2 : VAtm s2 = VAtm b) by (apply (consistent_fixed _ _ [(t1, VAtm a); (t2, VAtm b); (t3, VAtm (a ++ b))]); [rewrite E2; cbn; tauto|exact C]). assert (a = s1) by congruence. assert (b = s2) by congruence. subst a b. auto.
    + unfold try_split. destruct (consistent _); repeat constructor.
Qed.
Lemma concat_none t1 t2 t3 : ctyped t1 -> ctyped t2 -> ctyped t3 ->
  concat_solutions t1 t2 t3 = None <-> (exists v, t3 = Var v) /\ ((exists v, t1 = Var v) \/ (exists v, t2 = Var v)).
Proof.
  intros T1 T2 T3. destruct t3 as [v3|x3]; [|destruct (T3 x3 eq_refl) as [s3 [-> L3]]].
  - destruct t1 as [v1|x1]; [|destruct (T1 x1 eq_refl) as [s1 [-> L1]]]; (destruct t2 as [v2|x2]; [|destruct (T2 x2 eq_refl) as [s2 [-> L2]]]); cbn [concat_solutions]; split; intros E; try reflexivity; try (split; [eauto|]; eauto; fail); try discriminate.
    destruct E as [_ [[v E]|[v E]]]; discriminate.
  - split.
    + unfold concat_solutions. destruct t1 as [v1|[|s1]], t2 as [v2|[|s2]]; discriminate.
    + intros [[v E] _]. discriminate.
Qed.
