(** C63: proofs. *)
Require Import List Bool Arith Lia.
Require Import Verif.Sugar_Model Verif.Sugar_Spec.
Import ListNotations.

Section Proofs.
Variable St : Type.
Variable D : nat -> list nat -> St -> list St.
Notation stack := (stack St). Notation sem := (sem St D). Notation exec := (exec St D). Notation back := (back St D).
Notation bottom := (bottom St). Notation kill := (kill St). Notation each := (each St).

(** * Stacks *)
Lemma split_at : forall (n : nat) (K : stack), n <= length K -> exists K1 K2, K = K1 ++ K2 /\ length K2 = n.
Proof.
  intros n K Hn. exists (firstn (length K - n) K), (skipn (length K - n) K). split; [symmetry; apply firstn_skipn|]. rewrite skipn_length. lia.
Qed.
Lemma bottom_app : forall n (K1 K : stack), n <= length K -> bottom n (K1 ++ K) = bottom n K.
Proof.
  intros n K1 K Hn. unfold Sugar_Spec.bottom. rewrite app_length. replace (length K1 + length K - n) with (length K1 + (length K - n)) by lia.
  rewrite skipn_app, skipn_all2 by lia. cbn [app]. f_equal. lia.
Qed.
Lemma bottom_all : forall (K : stack), bottom (length K) K = K.
Proof. intros K. unfold Sugar_Spec.bottom. rewrite Nat.sub_diag. reflexivity. Qed.
Lemma bottom_eq : forall n (K1 K : stack), length K = n -> bottom n (K1 ++ K) = K.
Proof. intros n K1 K <-. rewrite bottom_app by lia. apply bottom_all. Qed.
Lemma bottom_len : forall n (K : stack), n <= length K -> length (bottom n K) = n.
Proof. intros n K Hn. unfold Sugar_Spec.bottom. rewrite skipn_length. lia. Qed.
Lemma kill_eq : forall n (K1 K : stack) a, S (length K) = n -> kill n (K1 ++ a :: K) = K1 ++ [] :: K.
Proof.
  intros n K1 K a <-. unfold Sugar_Spec.kill. rewrite app_length. cbn [length]. replace (length K1 + S (length K) - S (length K)) with (length K1) by lia.
  rewrite firstn_app, firstn_all, Nat.sub_diag. cbn [firstn]. rewrite app_nil_r. rewrite skipn_app, skipn_all2 by lia. replace (length K1 + 1 - length K1) with 1 by lia. reflexivity.
Qed.
Lemma kill_split : forall n (K : stack), 0 < n <= length K -> exists K1 a K2, K = K1 ++ a :: K2 /\ S (length K2) = n.
Proof.
  intros n K Hn. destruct (split_at n K) as (K1 & K2 & E & L); [lia|]. destruct K2 as [|a K2]; [cbn in L; lia|]. exists K1, a, K2. auto.
Qed.
Lemma kill_app : forall n (K1 K : stack), 0 < n <= length K -> kill n (K1 ++ K) = K1 ++ kill n K.
Proof. intros n K1 K Hn. destruct (kill_split n K Hn) as (K2 & a & K3 & -> & L). rewrite app_assoc, !kill_eq by exact L. rewrite app_assoc. reflexivity. Qed.
Lemma kill_len : forall n (K : stack), 0 < n <= length K -> length (kill n K) = length K.
Proof. intros n K Hn. destruct (kill_split n K Hn) as (K2 & a & K3 & -> & L). rewrite kill_eq by exact L. rewrite !app_length. reflexivity. Qed.
Definition killl (ks : list nat) (K : stack) : stack := fold_left (fun K n => kill n K) ks K.
Definition inb (h : nat) (ks : list nat) : Prop := forall n, In n ks -> 0 < n <= h.
Lemma inb_mono : forall h h' ks, inb h ks -> h <= h' -> inb h' ks.
Proof. intros h h' ks B L n Hn. specialize (B n Hn). lia. Qed.
Lemma inb_app : forall h k1 k2, inb h k1 -> inb h k2 -> inb h (k1 ++ k2).
Proof. intros h k1 k2 B1 B2 n Hn. apply in_app_iff in Hn. destruct Hn; auto. Qed.
Lemma killl_len : forall ks (K : stack), inb (length K) ks -> length (killl ks K) = length K.
Proof.
  induction ks as [|n ks IH]; intros K B; [reflexivity|]. change (killl (n :: ks) K) with (killl ks (kill n K)). assert (Q : 0 < n <= length K) by (apply B; left; reflexivity).
  rewrite IH; [apply kill_len; exact Q|]. rewrite kill_len by exact Q. intros m Hm. apply B. right. exact Hm.
Qed.
Lemma killl_app : forall ks (K1 K : stack), inb (length K) ks -> killl ks (K1 ++ K) = K1 ++ killl ks K.
Proof.
  induction ks as [|n ks IH]; intros K1 K B; [reflexivity|]. assert (Q : 0 < n <= length K) by (apply B; left; reflexivity).
  change (killl (n :: ks) (K1 ++ K)) with (killl ks (kill n (K1 ++ K))). rewrite kill_app by exact Q. apply IH. rewrite kill_len by exact Q. intros m Hm. apply B. right. exact Hm.
Qed.
Lemma killl_killl : forall k1 k2 (K : stack), killl (k1 ++ k2) K = killl k2 (killl k1 K).
Proof. intros. unfold killl. apply fold_left_app. Qed.
Lemma bottom_killl : forall m ks (K : stack), inb m ks -> m <= length K -> bottom m (killl ks K) = killl ks (bottom m K).
Proof.
  intros m ks K B L. destruct (split_at m K L) as (K1 & K2 & -> & L2). subst m. rewrite killl_app by exact B. rewrite bottom_eq; [|apply killl_len; exact B]. rewrite bottom_eq by reflexivity. reflexivity.
Qed.

(** * What a goal does to the stack, in the end *)
Record eff : Type := Eff { stop : option nat; kills : list nat }.
Definition apply_eff (e : eff) (K : stack) : stack := match stop e with Some m => bottom m (killl (kills e) K) | None => killl (kills e) K end.
Definition wf (h : nat) (e : eff) : Prop := (forall m, stop e = Some m -> m <= h) /\ inb h (kills e).
Definition nothing : eff := Eff None [].
Definition outc : Type := (list St * eff)%type.
Definition seq (a b : outc) : outc := match stop (snd a) with Some _ => a | None => (fst a ++ fst b, Eff (stop (snd b)) (kills (snd a) ++ kills (snd b))) end.
Fixpoint foldk (k : St -> outc) (xs : list St) (e0 : eff) : outc := match xs with [] => ([], e0) | x :: xs => seq (k x) (foldk k xs e0) end.
Definition ke (cut : bool) (L : nat) : eff := if cut then Eff (Some L) [] else nothing.
Lemma wf_mono : forall h h' e, wf h e -> h <= h' -> wf h' e.
Proof. intros h h' e (A & B) L. split; [intros m Hm; specialize (A m Hm); lia|apply (inb_mono h); assumption]. Qed.
Lemma seq_wf : forall h a b, wf h (snd a) -> wf h (snd b) -> wf h (snd (seq a b)).
Proof. intros h a b (A1 & A2) (B1 & B2). unfold seq. destruct (stop (snd a)) eqn:E; [split; [rewrite E; exact A1|exact A2]|]. split; [exact B1|]. apply inb_app; assumption. Qed.
Lemma foldk_wf : forall h k xs e0, (forall x, wf h (snd (k x))) -> wf h e0 -> wf h (snd (foldk k xs e0)).
Proof. intros h k xs e0 Hk H0. induction xs as [|x xs IH]; [exact H0|]. cbn [foldk]. apply seq_wf; auto. Qed.
Lemma ke_wf : forall cut L h, L <= h -> wf h (ke cut L).
Proof. intros [|] L h Hl; (split; [|intros n []]); cbn; intros m Q; [injection Q as <-; exact Hl|discriminate]. Qed.
Lemma seq_assoc : forall a b c, seq (seq a b) c = seq a (seq b c).
Proof.
  intros (o1 & [s1 k1]) (o2 & [s2 k2]) (o3 & [s3 k3]). unfold seq. cbn [snd fst stop kills]. destruct s1; [reflexivity|]. cbn [snd fst stop kills]. destruct s2; cbn [snd fst stop kills]; [reflexivity|].
  rewrite !app_assoc. reflexivity.
Qed.
Lemma seq_nothing : forall a, seq ([], nothing) a = a.
Proof. intros (o & [s k]). reflexivity. Qed.
Lemma foldk_app : forall k xs ys e0, foldk k (xs ++ ys) e0 = seq (foldk k xs nothing) (foldk k ys e0).
Proof. intros k xs ys e0. induction xs as [|x xs IH]; [symmetry; apply seq_nothing|]. cbn [app foldk]. rewrite IH, seq_assoc. reflexivity. Qed.
Lemma foldk_stops : forall k xs e0, stop e0 <> None -> stop (snd (foldk k xs e0)) <> None.
Proof. intros k xs e0 H. induction xs as [|x xs IH]; [exact H|]. cbn [foldk]. unfold seq. destruct (stop (snd (k x))) eqn:E; [rewrite E; discriminate|exact IH]. Qed.
Lemma seq_stop : forall a b, stop (snd a) <> None -> seq a b = a.
Proof. intros a b H. unfold seq. destruct (stop (snd a)); [reflexivity|]. destruct H. reflexivity. Qed.
Lemma foldk_each : forall k f L cut xs, foldk k (fst (each xs cut f)) (ke (snd (each xs cut f)) L) = foldk (fun x => foldk k (fst (f x)) (ke (snd (f x)) L)) xs (ke cut L).
Proof.
  intros k f L cut. induction xs as [|x xs IH]; [reflexivity|]. cbn [Sugar_Spec.each foldk]. destruct (f x) as (l & c). destruct c; cbn [fst snd].
  - rewrite seq_stop; [reflexivity|]. apply foldk_stops. discriminate.
  - rewrite <- IH. destruct (each xs cut f) as (l' & c'). cbn [fst snd]. rewrite foldk_app. reflexivity.
Qed.
Lemma foldk_ext : forall k k' xs e0, (forall x, k x = k' x) -> foldk k xs e0 = foldk k' xs e0.
Proof. intros k k' xs e0 H. induction xs as [|x xs IH]; [reflexivity|]. cbn [foldk]. rewrite H, IH. reflexivity. Qed.
Lemma apply_len : forall h e K, wf h e -> h <= length K -> stop e = None -> length (apply_eff e K) = length K.
Proof. intros h e K (_ & B) L E. unfold apply_eff. rewrite E. apply killl_len. apply (inb_mono h); assumption. Qed.
Lemma apply_cons_stop : forall h e a K, wf h e -> h <= length K -> stop e <> None -> apply_eff e (a :: K) = apply_eff e K.
Proof.
  intros h e a K (A & B) L E. unfold apply_eff. destruct (stop e) as [m|] eqn:Q; [|destruct E; reflexivity]. specialize (A m eq_refl). change (a :: K) with ([a] ++ K). rewrite killl_app by (apply (inb_mono h); assumption).
  apply bottom_app. rewrite killl_len by (apply (inb_mono h); assumption). lia.
Qed.
Lemma apply_cons_none : forall h e a K, wf h e -> h <= length K -> stop e = None -> apply_eff e (a :: K) = a :: apply_eff e K.
Proof. intros h e a K (A & B) L E. unfold apply_eff. rewrite E. change (a :: K) with ([a] ++ K). rewrite killl_app by (apply (inb_mono h); assumption). reflexivity. Qed.
Definition stopat (m : nat) (a : outc) : outc := (fst a, Eff (match stop (snd a) with None => Some m | s => s end) (kills (snd a))).
Lemma apply_stopat : forall h m a K, wf h (snd a) -> h <= m -> m <= length K -> apply_eff (snd (stopat m a)) K = apply_eff (snd a) (bottom m K).
Proof.
  intros h m (o & [st ks]) K (A & B) L1 L2. cbn [snd stop kills] in *. unfold stopat, apply_eff. cbn [snd stop kills fst]. destruct st as [m'|].
  - specialize (A m' eq_refl). destruct (split_at m K L2) as (K1 & K2 & -> & L3). rewrite (bottom_eq m) by exact L3. rewrite killl_app by (apply (inb_mono h); [exact B|lia]). apply bottom_app. rewrite killl_len by (apply (inb_mono h); [exact B|lia]). lia.
  - apply bottom_killl; [apply (inb_mono h); assumption|exact L2].
Qed.
Lemma stopat_wf : forall h m a, wf h (snd a) -> h <= m -> wf m (snd (stopat m a)).
Proof.
  intros h m (o & [st ks]) (A & B) L. cbn in *. split; cbn; [|apply (inb_mono h); assumption]. intros m' Q. destruct st as [x|]; [specialize (A x eq_refl); injection Q as <-; lia|injection Q as <-; lia].
Qed.
Lemma stopat_stops : forall m a, stop (snd (stopat m a)) <> None.
Proof. intros m (o & [[x|] ks]); cbn; discriminate. Qed.
Lemma apply_seq : forall a b K, stop (snd a) = None -> apply_eff (snd (seq a b)) K = apply_eff (snd b) (apply_eff (snd a) K).
Proof. intros a b K E. unfold seq. rewrite E. cbn [snd]. unfold apply_eff. cbn [stop kills]. rewrite E, !killl_killl. reflexivity. Qed.
(** a cut of the choice points above K, and the end of the goal started on K, are the same *)
Lemma cut_here : forall k xs K, (forall x, wf (length K) (snd (k x))) ->
  fst (foldk k xs (Eff (Some (length K)) [])) = fst (foldk k xs nothing) /\ apply_eff (snd (foldk k xs (Eff (Some (length K)) []))) K = apply_eff (snd (foldk k xs nothing)) K.
Proof.
  intros k xs. induction xs as [|x xs IH]; intros K Hk.
  - split; [reflexivity|]. unfold apply_eff. cbn. apply bottom_all.
  - cbn [foldk]. destruct (stop (snd (k x))) eqn:E; [rewrite !seq_stop by (rewrite E; discriminate); auto|].
    rewrite !apply_seq by exact E. pose proof (apply_len (length K) _ K (Hk x) (le_n _) E) as L. destruct (IH (apply_eff (snd (k x)) K)) as (I1 & I2); [intros y; rewrite L; apply Hk|]. rewrite L in I1, I2.
    split; [unfold seq; rewrite E; cbn [fst]; rewrite I1; reflexivity|exact I2].
Qed.

(** * Continuations *)
Definition Wk (h : nat) (k : St -> outc) : Prop := forall x, wf h (snd (k x)).
Definition Beh (h : nat) (fs : list frame) (k : St -> outc) : Prop :=
  forall x K out, h <= length K -> back (apply_eff (snd (k x)) K) out -> exec fs x K (fst (k x) ++ out).
Lemma Beh_mono : forall h h' fs k, Beh h fs k -> h <= h' -> Beh h' fs k.
Proof. intros h h' fs k B L x K out Lk. apply B. lia. Qed.
Lemma Beh_ext : forall h fs k k', Beh h fs k -> (forall x, k x = k' x) -> Beh h fs k'.
Proof. intros h fs k k' B E x K out Lk. rewrite <- E. apply B. exact Lk. Qed.
Lemma Wk_mono : forall h h' k, Wk h k -> h <= h' -> Wk h' k.
Proof. intros h h' k B L x. apply (wf_mono h); auto. Qed.
Definition agree (n n' : nat) (r r' : env) : Prop := forall v, v < n \/ n' <= v -> r' v = r v.
Lemma agree_refl : forall n n' r, agree n n' r r.
Proof. intros n n' r v _. reflexivity. Qed.
Lemma agree_trans : forall n1 n2 n3 n r1 r2 r3, agree n1 n2 r1 r2 -> agree n2 n3 r2 r3 -> n <= n1 -> n1 <= n2 -> n2 <= n3 -> agree n n3 r1 r3.
Proof. intros n1 n2 n3 n r1 r2 r3 A B L1 L2 L3 v Hv. rewrite (B v) by lia. apply A. lia. Qed.
Lemma agree_mono : forall n n' m m' r r', agree n n' r r' -> m <= n -> n' <= m' -> agree m m' r r'.
Proof. intros n n' m m' r r' A L1 L2 v Hv. apply A. lia. Qed.
Lemma agree_set : forall n n' r v x, n <= v < n' -> agree n n' r (set r v x).
Proof. intros n n' r v x Hv w Hw. unfold set. destruct (Nat.eqb_spec w v); [lia|reflexivity]. Qed.
Lemma set_eq : forall r v x, set r v x v = Some x.
Proof. intros. unfold set. rewrite Nat.eqb_refl. reflexivity. Qed.
Definition res (b : body) (s : St) (k : St -> outc) (L : nat) : outc := foldk k (fst (sem b s)) (ke (snd (sem b s)) L).
Lemma res_wf : forall b k L h, Wk h k -> L <= h -> Wk h (fun s => res b s k L).
Proof. intros b k L h Hk Hl s. apply foldk_wf; [exact Hk|apply ke_wf; exact Hl]. Qed.
(** a goal *)
Definition Pi (b : body) (b1 : nb) (c : nat) (hc : bool) (n n' : nat) : Prop :=
  forall rest r l gs fs k h, (hc = true -> r c = Some h /\ In c rest) -> Wk h k ->
  (forall r', agree n n' r r' -> Beh h ((r', l, gs) :: fs) k) -> Beh h ((r, l, goal b1 rest :: gs) :: fs) (fun s => res b s k h).
(** an alternative *)
Fixpoint clauses (b : nb) (V : list nat) : list code := match b with NOr p q => goal p V :: clauses q V | _ => [goal b V] end.
Lemma goal_or : forall p q rest, goal (NOr p q) rest = CAux (inter (nvars p ++ nvars q) rest) (clauses (NOr p q) (inter (nvars p ++ nvars q) rest)).
Proof.
  intros p q rest. cbn [goal clauses]. f_equal. f_equal. generalize (inter (nvars p ++ nvars q) rest). intros V. induction q as [| | | q1 _ q2 IH| | | |]; try reflexivity. cbn [clauses]. rewrite <- IH. reflexivity.
Qed.
Definition Ai (b : body) (b1 : nb) (c : nat) (hc : bool) : Prop :=
  forall V r fs k h s K out, (hc = true -> r c = Some h /\ In c V) -> h <= length K -> Wk h k -> Beh h fs k ->
  back (apply_eff (snd (res b s k h)) K) out -> back (map (fun cd => (s, (r, length K, [cd]) :: fs)) (clauses b1 V) :: K) (fst (res b s k h) ++ out).
Lemma Beh_ret : forall h fs k r l, Beh h fs k -> Beh h ((r, l, []) :: fs) k.
Proof. intros h fs k r l B x K out Lk Q. apply e_return. apply B; assumption. Qed.
Lemma A_of_P : forall b b1 c hc n n', (forall p q, b1 <> NOr p q) -> Pi b b1 c hc n n' -> Ai b b1 c hc.
Proof.
  intros b b1 c hc n n' N P V r fs k h s K out Hc Hh Hk HB Q. assert (E : clauses b1 V = [goal b1 V]) by (destruct b1; try reflexivity; destruct (N b1_1 b1_2); reflexivity).
  rewrite E. cbn [map]. apply b_last. apply (P V r (length K) [] fs k h Hc Hk); [|exact Hh|exact Q]. intros r' _. apply Beh_ret. exact HB.
Qed.
Lemma in_mem : forall x l, mem x l = true <-> In x l.
Proof. intros x l. unfold mem. rewrite existsb_exists. split; [intros (y & Hy & E); apply Nat.eqb_eq in E; subst; exact Hy|intros H; exists x; split; [exact H|apply Nat.eqb_refl]]. Qed.
Lemma in_inter : forall x a b, In x (inter a b) <-> In x a /\ In x b.
Proof. intros x a b. unfold inter. rewrite filter_In, nodup_In, in_mem. reflexivity. Qed.
Lemma P_of_A : forall b p q c hc n n', (hc = true -> In c (nvars p ++ nvars q)) -> Ai b (NOr p q) c hc -> Pi b (NOr p q) c hc n n'.
Proof.
  intros b p q c hc n n' Hv HA rest r l gs fs k h Hc Hk HB s K out Hh Q. rewrite goal_or. apply e_aux.
  apply (HA _ _ _ k h s K out); auto; [|apply HB; apply agree_refl]. intros H. destruct (Hc H) as (H1 & H2). assert (H3 : In c (inter (nvars p ++ nvars q) rest)) by (apply in_inter; split; auto).
  split; [|exact H3]. unfold pass. apply in_mem in H3. rewrite H3. exact H1.
Qed.

(** * normalize_cuts1, by cases *)
Definition plain (b : body) : Prop := match b with BIf _ _ | BSoft _ _ => False | _ => True end.
Definition guard (v : nat) (hc : bool) (b : nb) : nb := if hc then NConj (NGetChoice v) b else b.
Inductive nc (optim : bool) : body -> nat -> nat -> nb -> bool -> nat -> Prop :=
| nc_call : forall p vs c n, nc optim (BCall p vs) c n (NCall p vs) false n
| nc_fail : forall c n, nc optim BFail c n NFail false n
| nc_cut : forall c n, nc optim BCut c n (NCut c) true n
| nc_conj : forall p q c n p1 h1 m q1 h2 n', nc optim p c n p1 h1 m -> nc optim q c m q1 h2 n' -> nc optim (BConj p q) c n (NConj p1 q1) (h1 || h2) n'
| nc_if : forall p q c n p1 hp m q1 h n', nc optim p n (S n) p1 hp m -> nc optim q c m q1 h n' ->
    nc optim (BIf p q) c n (NConj (NGetChoice n) (NConj p1 (NConj (NCut n) q1))) h n'
| nc_soft : forall p q c n p1 hp m q1 h n', nc optim p n (S n) p1 hp m -> nc optim q c m q1 h n' -> nc optim (BSoft p q) c n (NConj (guard n hp p1) q1) h n'
| nc_else_fail : forall p r c n h1 m b1 h n', ~ plain p -> nc optim r c n NFail h1 m -> nc optim p c m b1 h n' -> nc optim (BOr p r) c n b1 (h1 || h) n'
| nc_if_else : forall p q r c n r1 h1 m p1 hp m2 q1 h2 n', nc optim r c n r1 h1 m -> nc optim p (S m) (S (S m)) p1 hp m2 -> nc optim q c m2 q1 h2 n' ->
    nc optim (BOr (BIf p q) r) c n (NOr (NConj (NGetLevel m) (NConj (guard (S m) hp p1) (NConj (NCut m) q1))) r1) (h1 || h2) n'
| nc_soft_else : forall p q r c n r1 h1 m p1 hp m2 q1 h2 n', nc optim r c n r1 h1 m -> nc optim p (S m) (S (S m)) p1 hp m2 -> nc optim q c m2 q1 h2 n' ->
    nc optim (BOr (BSoft p q) r) c n (NOr (NConj (NGetChoice m) (NConj (guard (S m) hp p1) (NConj (NSoft m) q1))) r1) (h1 || h2) n'
| nc_or_l : forall p r c n h1 m r1 h2 n', plain p -> nc optim p c n NFail h1 m -> nc optim r c m r1 h2 n' -> nc optim (BOr p r) c n r1 (h1 || h2) n'
| nc_or_r : forall p r c n p1 h1 m h2 n', plain p -> nc optim p c n p1 h1 m -> nc optim r c m NFail h2 n' -> nc optim (BOr p r) c n p1 (h1 || h2) n'
| nc_or : forall p r c n p1 h1 m r1 h2 n', plain p -> nc optim p c n p1 h1 m -> nc optim r c m r1 h2 n' -> nc optim (BOr p r) c n (NOr p1 r1) (h1 || h2) n'.
Lemma ncuts_nc : forall optim b c n b1 hc n', ncuts optim b c n = (b1, hc, n') -> nc optim b c n b1 hc n'.
Proof.
  intros optim. fix IH 1. intros b c n b1 hc n' E. destruct b as [p vs| | |p q|p r|p q|p q].
  - injection E as <- <- <-. constructor.
  - injection E as <- <- <-. constructor.
  - injection E as <- <- <-. constructor.
  - cbn [ncuts] in E. destruct (ncuts optim p c n) as ((p1 & h1) & m1) eqn:E1. destruct (ncuts optim q c m1) as ((q1 & h2) & m2) eqn:E2. injection E as <- <- <-. apply IH in E1. apply IH in E2. econstructor; eassumption.
  - assert (G : plain p -> (let '(p1, h1, n0) := ncuts optim p c n in let '(r1, h2, n1) := ncuts optim r c n0 in
        ((if optim && is_fail p1 then r1 else if optim && is_fail r1 then p1 else NOr p1 r1), h1 || h2, n1)) = (b1, hc, n') -> nc optim (BOr p r) c n b1 hc n').
    { intros PL Q. destruct (ncuts optim p c n) as ((p1 & h1) & m1) eqn:E1. destruct (ncuts optim r c m1) as ((r1 & h2) & m2) eqn:E2. injection Q as <- <- <-. apply IH in E1. apply IH in E2.
      destruct (optim && is_fail p1) eqn:F1; [apply andb_true_iff in F1; destruct F1 as (_ & F1); destruct p1; try discriminate F1; eapply nc_or_l; eassumption|].
      destruct (optim && is_fail r1) eqn:F2; [apply andb_true_iff in F2; destruct F2 as (_ & F2); destruct r1; try discriminate F2; eapply nc_or_r; eassumption|]. eapply nc_or; eassumption. }
    destruct p as [p vs| | |p q|p q|p q|p q]; try (apply G; [exact Logic.I|exact E]); clear G; cbn [ncuts] in E.
    + destruct (ncuts optim r c n) as ((r1 & h1) & m1) eqn:E1. apply IH in E1. destruct (optim && is_fail r1) eqn:F1.
      * destruct (ncuts optim p m1 (S m1)) as ((p1 & h2) & m2) eqn:E2. destruct (ncuts optim q c m2) as ((q1 & h3) & m3) eqn:E3. injection E as <- <- <-. apply IH in E2. apply IH in E3.
        apply andb_true_iff in F1. destruct F1 as (_ & F1). destruct r1; try discriminate F1. eapply nc_else_fail; [exact (fun x => x)|eassumption|]. econstructor; eassumption.
      * destruct (ncuts optim p (S m1) (S (S m1))) as ((p1 & h2) & m2) eqn:E2. cbn [in_if] in E. destruct (ncuts optim q c m2) as ((q1 & h3) & m3) eqn:E3. injection E as <- <- <-. apply IH in E2. apply IH in E3. apply nc_if_else with (hp := h2) (m2 := m2); assumption.
    + destruct (ncuts optim r c n) as ((r1 & h1) & m1) eqn:E1. apply IH in E1. destruct (optim && is_fail r1) eqn:F1.
      * destruct (ncuts optim p m1 (S m1)) as ((p1 & h2) & m2) eqn:E2. cbn [in_if] in E. destruct (ncuts optim q c m2) as ((q1 & h3) & m3) eqn:E3. injection E as <- <- <-. apply IH in E2. apply IH in E3.
        apply andb_true_iff in F1. destruct F1 as (_ & F1). destruct r1; try discriminate F1. eapply nc_else_fail; [exact (fun x => x)|eassumption|]. eapply (nc_soft optim p q c m1 p1 h2); eassumption.
      * destruct (ncuts optim p (S m1) (S (S m1))) as ((p1 & h2) & m2) eqn:E2. cbn [in_if] in E. destruct (ncuts optim q c m2) as ((q1 & h3) & m3) eqn:E3. injection E as <- <- <-. apply IH in E2. apply IH in E3. apply nc_soft_else with (hp := h2) (m2 := m2); assumption.
  - cbn [ncuts] in E. destruct (ncuts optim p n (S n)) as ((p1 & h2) & m2) eqn:E2. destruct (ncuts optim q c m2) as ((q1 & h3) & m3) eqn:E3. injection E as <- <- <-. apply IH in E2. apply IH in E3. econstructor; eassumption.
  - cbn [ncuts] in E. destruct (ncuts optim p n (S n)) as ((p1 & h2) & m2) eqn:E2. cbn [in_if] in E. destruct (ncuts optim q c m2) as ((q1 & h3) & m3) eqn:E3. injection E as <- <- <-. apply IH in E2. apply IH in E3. eapply (nc_soft optim p q c n p1 h2); eassumption.
Qed.
Lemma nc_le : forall optim b c n b1 hc n', nc optim b c n b1 hc n' -> n <= n'.
Proof. intros optim b c n b1 hc n' H. induction H; lia. Qed.
Lemma nc_vars : forall optim b c n b1 hc n', nc optim b c n b1 hc n' -> hc = true -> In c (nvars b1).
Proof.
  intros optim b c n b1 hc n' H. induction H; intros Hh; try discriminate Hh; cbn [nvars]; repeat rewrite in_app_iff; cbn [In]; try tauto.
  - apply orb_true_iff in Hh. tauto.
  - apply orb_true_iff in Hh. destruct Hh as [Hh|Hh]; [destruct (IHnc1 Hh)|auto].
  - apply orb_true_iff in Hh. tauto.
  - apply orb_true_iff in Hh. tauto.
  - apply orb_true_iff in Hh. destruct Hh as [Hh|Hh]; [destruct (IHnc1 Hh)|auto].
  - apply orb_true_iff in Hh. destruct Hh as [Hh|Hh]; [auto|destruct (IHnc2 Hh)].
  - apply orb_true_iff in Hh. tauto.
Qed.
(** no cut *)
Lemma each_false : forall xs f, (forall x, snd (f x) = false) -> snd (each xs false f) = false.
Proof.
  intros xs f H. induction xs as [|x xs IH]; [reflexivity|]. cbn [Sugar_Spec.each]. specialize (H x). destruct (f x) as (l & c). cbn in H. subst c. destruct (each xs false f) as (l' & c'). exact IH.
Qed.
Lemma sem_or : forall p r s, plain p -> sem (BOr p r) s = (let (l, c) := sem p s in if c then (l, true) else let (l', c') := sem r s in (l ++ l', c')).
Proof. intros p r s H. destruct p; try reflexivity; destruct H. Qed.
Lemma nc_no_cut : forall optim b c n b1 hc n', nc optim b c n b1 hc n' -> hc = false -> forall s, snd (sem b s) = false.
Proof.
  intros optim b c n b1 hc n' H. induction H; intros Hh s; try discriminate Hh; try reflexivity; try (apply orb_false_iff in Hh; destruct Hh as (Ha & Hb)).
  - cbn [Sugar_Spec.sem]. rewrite (IHnc1 Ha s). apply each_false. apply IHnc2. exact Hb.
  - cbn [Sugar_Spec.sem]. destruct (fst (sem p s)) as [|x xs]; [reflexivity|]. apply IHnc2. exact Hh.
  - cbn [Sugar_Spec.sem]. apply each_false. apply IHnc2. exact Hh.
  - destruct p as [p vs| | |p q|p q|p q|p q]; try (destruct H; exact Logic.I); cbn [Sugar_Spec.sem] in IHnc2 |- *; specialize (IHnc2 Hb s); specialize (IHnc1 Ha s); destruct (fst (sem p s)) as [|x xs]; assumption.
  - cbn [Sugar_Spec.sem]. destruct (fst (sem p s)) as [|x xs]; [apply IHnc1; exact Ha|apply IHnc3; exact Hb].
  - cbn [Sugar_Spec.sem]. destruct (fst (sem p s)) as [|x xs]; [apply IHnc1; exact Ha|]. apply each_false. apply IHnc3. exact Hb.
  - rewrite sem_or by assumption. specialize (IHnc1 Ha s). destruct (sem p s) as (l & cc). cbn in IHnc1. subst cc. specialize (IHnc2 Hb s). destruct (sem r s) as (l' & c'). exact IHnc2.
  - rewrite sem_or by assumption. specialize (IHnc1 Ha s). destruct (sem p s) as (l & cc). cbn in IHnc1. subst cc. specialize (IHnc2 Hb s). destruct (sem r s) as (l' & c'). exact IHnc2.
  - rewrite sem_or by assumption. specialize (IHnc1 Ha s). destruct (sem p s) as (l & cc). cbn in IHnc1. subst cc. specialize (IHnc2 Hb s). destruct (sem r s) as (l' & c'). exact IHnc2.
Qed.
Lemma nc_is_fail : forall optim b c n hc n', nc optim b c n NFail hc n' -> hc = false /\ forall s, sem b s = ([], false).
Proof.
  intros optim b c n hc n' H. remember NFail as f eqn:Ef. revert Ef. induction H; intros Ef; try discriminate Ef.
  - split; reflexivity.
  - subst b1. destruct (IHnc1 eq_refl) as (-> & I1). destruct (IHnc2 eq_refl) as (-> & I2). split; [reflexivity|]. intros s. specialize (I1 s). specialize (I2 s).
    destruct p as [p vs| | |p q|p q|p q|p q]; try (destruct H; exact Logic.I); cbn [Sugar_Spec.sem] in I2 |- *; destruct (fst (sem p s)); assumption.
  - subst r1. destruct (IHnc1 eq_refl) as (-> & I1). destruct (IHnc2 eq_refl) as (-> & I2). split; [reflexivity|]. intros s. rewrite sem_or, I1, I2 by assumption. reflexivity.
  - subst p1. destruct (IHnc1 eq_refl) as (-> & I1). destruct (IHnc2 eq_refl) as (-> & I2). split; [reflexivity|]. intros s. rewrite sem_or, I1, I2 by assumption. reflexivity.
Qed.

(** * The condition of an if-then-else *)
Lemma guard_ok : forall p v n p1 hp m, Pi p p1 v hp n m -> v < n -> (hp = false -> forall s, snd (sem p s) = false) -> n <= m ->
  forall rest r l gs fs k h, Wk h k -> (forall r', agree v m r r' -> Beh h ((r', l, gs) :: fs) k) -> Beh h ((r, l, goal (guard v hp p1) rest :: gs) :: fs) (fun s => foldk k (fst (sem p s)) nothing).
Proof.
  intros p v n p1 hp m P Hv NC Hm rest r l gs fs k h Hk HB s K out Hh Q. destruct hp; cbn [guard].
  - cbn [goal]. apply e_conj. apply e_choice. destruct (cut_here k (fst (sem p s)) K) as (C1 & C2); [intros x; apply (wf_mono h); auto|].
    assert (G : Beh (length K) ((set r v (length K), l, goal p1 (rest ++ [v]) :: gs) :: fs) (fun s => res p s k (length K))).
    { apply P; [intros _; split; [apply set_eq|apply in_app_iff; right; left; reflexivity]|apply (Wk_mono h); assumption|].
      intros r' Ag. apply (Beh_mono h); [|exact Hh]. apply HB. intros w Hw. rewrite (Ag w) by lia. unfold set. destruct (Nat.eqb_spec w v); [lia|reflexivity]. }
    specialize (G s K out (le_n _)). unfold res in G. cbn [nvars]. destruct (snd (sem p s)).
    + cbn [ke] in G. rewrite C1, C2 in G. apply G. exact Q.
    + apply G. exact Q.
  - assert (G : Beh h ((r, l, goal p1 rest :: gs) :: fs) (fun s => res p s k h)).
    { apply P; [discriminate|exact Hk|]. intros r' Ag. apply HB. apply (agree_mono n m); [exact Ag|lia|lia]. }
    specialize (G s K out Hh). unfold res in G. rewrite (NC eq_refl s) in G. apply G. exact Q.
Qed.

(** * All constructs *)
Lemma apply_nothing : forall K, apply_eff nothing K = K.
Proof. reflexivity. Qed.
Lemma seq_end : forall a e K, apply_eff (snd (seq a ([], e))) K = match stop (snd a) with Some _ => apply_eff (snd a) K | None => apply_eff e (apply_eff (snd a) K) end.
Proof. intros a e K. destruct (stop (snd a)) eqn:E; [rewrite seq_stop by (rewrite E; discriminate); reflexivity|]. rewrite apply_seq by exact E. reflexivity. Qed.
Lemma seq_fst : forall a b, fst (seq a b) = match stop (snd a) with Some _ => fst a | None => fst a ++ fst b end.
Proof. intros a b. unfold seq. destruct (stop (snd a)); reflexivity. Qed.
(** the alternatives after the first one, on the top of the stack *)
Lemma first_alt : forall h fs k x A K out X, Beh h fs k -> Wk h k -> h <= length K ->
  (stop (snd (k x)) <> None -> back (apply_eff (snd (k x)) K) out /\ X = out) -> (stop (snd (k x)) = None -> back (A :: apply_eff (snd (k x)) K) X) -> exec fs x (A :: K) (fst (k x) ++ X).
Proof.
  intros h fs k x A K out X HB Hk Hh H1 H2. apply HB; [cbn; lia|]. destruct (stop (snd (k x))) eqn:E.
  - destruct H1 as (H1 & ->); [discriminate|]. rewrite (apply_cons_stop h) by (auto; rewrite E; discriminate). exact H1.
  - rewrite (apply_cons_none h) by auto. apply H2. reflexivity.
Qed.
Lemma call_ok : forall h fs k, Beh h fs k -> Wk h k -> forall xs K out, h <= length K -> back (apply_eff (snd (foldk k xs nothing)) K) out ->
  back (map (fun x => (x, fs)) xs :: K) (fst (foldk k xs nothing) ++ out).
Proof.
  intros h fs k HB Hk. induction xs as [|x xs IH]; intros K out Hh Q; [apply b_pop; exact Q|]. cbn [foldk] in *. destruct (stop (snd (k x))) as [m|] eqn:E.
  - rewrite seq_stop in * by (rewrite E; discriminate). destruct xs as [|y xs]; [apply b_last; apply HB; assumption|]. cbn [map]. apply b_next.
    apply (first_alt h _ _ _ _ _ out); auto. intros Q'. rewrite Q' in E. discriminate E.
  - rewrite apply_seq in Q by exact E. rewrite seq_fst, E, <- app_assoc. pose proof (apply_len h _ K (Hk x) Hh E) as Ln. destruct xs as [|y xs].
    + apply b_last. apply HB; [exact Hh|]. exact Q.
    + cbn [map]. apply b_next. apply (first_alt h _ _ _ _ _ out); auto; [intros Q'; destruct Q'; exact E|]. intros _. apply IH; [lia|exact Q].
Qed.
(** a clause of an auxiliary predicate, then the others *)
Lemma alts_ok : forall b r1 c hc1 V r fs k h s K out (R : outc) cd, Ai b r1 c hc1 -> (hc1 = true -> r c = Some h /\ In c V) -> h <= length K -> Wk h k -> Beh h fs k -> wf (length K) (snd R) ->
  (forall K' out', length K' = S (length K) -> bottom (length K) K' = K -> back (apply_eff (snd R) K') out' -> exec ((r, length K, [cd]) :: fs) s K' (fst R ++ out')) ->
  back (apply_eff (snd (seq R (res b s k h))) K) out ->
  back (map (fun cd => (s, (r, length K, [cd]) :: fs)) (cd :: clauses r1 V) :: K) (fst (seq R (res b s k h)) ++ out).
Proof.
  intros b r1 c hc1 V r fs k h s K out R cd HA Hc Hh Hk HB HR HE Q. assert (NE : exists a l, clauses r1 V = a :: l) by (destruct r1; cbn; eauto). destruct NE as (a & l & NE). cbn [map]. rewrite NE. cbn [map].
  apply b_next. set (ALT := (s, (r, length K, [a]) :: fs) :: map (fun cd => (s, (r, length K, [cd]) :: fs)) l). rewrite seq_fst. destruct (stop (snd R)) as [m|] eqn:E.
  - rewrite seq_stop in Q by (rewrite E; discriminate). apply HE; [reflexivity|apply (bottom_eq (length K) [ALT] K); reflexivity|]. rewrite (apply_cons_stop (length K)) by (auto; rewrite E; discriminate). exact Q.
  - rewrite apply_seq in Q by exact E. rewrite <- app_assoc. apply HE; [reflexivity|apply (bottom_eq (length K) [ALT] K); reflexivity|]. rewrite (apply_cons_none (length K)) by auto.
    pose proof (apply_len (length K) _ K HR (le_n _) E) as Ln. unfold ALT. pose proof (HA V r fs k h s (apply_eff (snd R) K) out Hc) as G. rewrite NE, Ln in G. cbn [map] in G. apply G; auto.
Qed.
Lemma res_or : forall p r s k h, plain p -> res (BOr p r) s k h = seq (res p s k h) (res r s k h).
Proof.
  intros p r s k h H. unfold res. rewrite sem_or by exact H. destruct (sem p s) as (l & c). destruct c; cbn [fst snd].
  - rewrite seq_stop; [reflexivity|]. apply foldk_stops. discriminate.
  - destruct (sem r s) as (l' & c'). cbn [fst snd]. rewrite foldk_app. reflexivity.
Qed.
Lemma res_no : forall b s k h, sem b s = ([], false) -> res b s k h = ([], nothing).
Proof. intros b s k h E. unfold res. rewrite E. reflexivity. Qed.
Lemma seq_no : forall a, fst (seq a ([], nothing)) = fst a /\ forall K, apply_eff (snd (seq a ([], nothing))) K = apply_eff (snd a) K.
Proof. intros a. split; [rewrite seq_fst; destruct (stop (snd a)); [reflexivity|apply app_nil_r]|]. intros K. rewrite seq_end. destruct (stop (snd a)); reflexivity. Qed.
Lemma Pi_more : forall b b1 c hc n n' m m' hc', Pi b b1 c hc n n' -> m <= n -> n' <= m' -> (hc = true -> hc' = true) -> Pi b b1 c hc' m m'.
Proof.
  intros b b1 c hc n n' m m' hc' P L1 L2 Hh rest r l gs fs k h Hc Hk HB. apply P; auto. intros r' Ag. apply HB. apply (agree_mono n n'); assumption.
Qed.
Lemma Pi_sem : forall b b' b1 c hc n n', Pi b b1 c hc n n' -> (forall s, sem b s = sem b' s) -> Pi b' b1 c hc n n'.
Proof.
  intros b b' b1 c hc n n' P E rest r l gs fs k h Hc Hk HB. apply (Beh_ext h _ (fun s => res b s k h)); [apply P; assumption|]. intros x. unfold res. rewrite E. reflexivity.
Qed.
Lemma Ai_sem : forall b b' b1 c hc hc', Ai b b1 c hc -> (forall s, sem b s = sem b' s) -> (hc = true -> hc' = true) -> Ai b' b1 c hc'.
Proof.
  intros b b' b1 c hc hc' P E Hh V r fs k h s K out Hc Hl Hk HB Q. assert (ER : res b' s k h = res b s k h) by (unfold res; rewrite E; reflexivity). rewrite ER in *. apply (P V r fs k h s K out); auto.
Qed.
Lemma or_true : forall a b, a = true \/ b = true -> a || b = true.
Proof. intros [] []; intuition. Qed.
(** several killings of the same choice point *)
Lemma kill_top : forall n a K, n = S (length K) -> kill n (a :: K) = [] :: K.
Proof. intros n a K ->. apply (kill_eq (S (length K)) [] K a eq_refl). Qed.
Definition alsokill (n : nat) (a : outc) : outc := (fst a, Eff (stop (snd a)) (n :: kills (snd a))).
Lemma foldk_alsokill : forall n k h a xs K, n = S (length K) -> h <= length K -> Wk h k -> xs <> [] ->
  fst (foldk (fun x => alsokill n (k x)) xs nothing) = fst (foldk k xs nothing) /\ stop (snd (foldk (fun x => alsokill n (k x)) xs nothing)) = stop (snd (foldk k xs nothing)) /\
  (stop (snd (foldk k xs nothing)) = None -> apply_eff (snd (foldk (fun x => alsokill n (k x)) xs nothing)) (a :: K) = [] :: apply_eff (snd (foldk k xs nothing)) K) /\
  (stop (snd (foldk k xs nothing)) <> None -> apply_eff (snd (foldk (fun x => alsokill n (k x)) xs nothing)) (a :: K) = apply_eff (snd (foldk k xs nothing)) K).
Proof.
  intros n k h a xs K Hn Hh Hk. revert a K Hn Hh. induction xs as [|x xs IH]; intros a K Hn Hh NE; [destruct NE; reflexivity|]. clear NE. cbn [foldk].
  assert (AK : apply_eff (snd (alsokill n (k x))) (a :: K) = apply_eff (snd (k x)) ([] :: K)).
  { unfold alsokill, apply_eff. cbn [snd stop kills]. change (killl (n :: kills (snd (k x))) (a :: K)) with (killl (kills (snd (k x))) (kill n (a :: K))). rewrite kill_top by exact Hn. reflexivity. }
  destruct (stop (snd (k x))) as [m|] eqn:E.
  - rewrite (seq_stop (k x)) by (rewrite E; discriminate). rewrite seq_stop by (cbn; rewrite E; discriminate). split; [reflexivity|]. split; [reflexivity|]. split; [rewrite E; discriminate|]. intros _. rewrite AK. apply (apply_cons_stop h); auto. rewrite E. discriminate.
  - assert (E' : stop (snd (alsokill n (k x))) = None) by exact E. rewrite !apply_seq by assumption. rewrite !seq_fst, E, E'. rewrite AK, (apply_cons_none h) by auto. pose proof (apply_len h _ K (Hk x) Hh E) as Ln.
    assert (SS : forall b, stop (snd (seq (k x) b)) = stop (snd b)) by (intros b; unfold seq; rewrite E; reflexivity). assert (SS' : forall b, stop (snd (seq (alsokill n (k x)) b)) = stop (snd b)) by (intros b; unfold seq; rewrite E'; reflexivity).
    rewrite SS, SS'. destruct xs as [|y xs].
    + cbn [foldk fst snd]. split; [reflexivity|]. split; [reflexivity|]. split; [reflexivity|]. intros Q. destruct Q. reflexivity.
    + destruct (IH [] (apply_eff (snd (k x)) K)) as (I1 & I2 & I3 & I4); [lia|lia|discriminate|]. split; [rewrite I1; reflexivity|]. split; [exact I2|]. split; [exact I3|exact I4].
Qed.
Lemma alsokill_wf : forall n h a, wf h (snd a) -> h < n -> wf n (snd (alsokill n a)).
Proof. intros n h a (A & B) L. split; cbn; [intros m Q; specialize (A m Q); lia|]. intros m [<-|Q]; [lia|]. specialize (B m Q). lia. Qed.

Lemma sem_or_if : forall p r, ~ plain p -> (forall s, sem r s = ([], false)) -> forall s, sem p s = sem (BOr p r) s.
Proof. intros p r NP H s. destruct p as [p vs| | |p q|p q|p q|p q]; try (destruct NP; exact Logic.I); cbn [Sugar_Spec.sem]; rewrite H; destruct (fst (sem p s)); reflexivity. Qed.
Lemma sem_or_l : forall p r, plain p -> (forall s, sem p s = ([], false)) -> forall s, sem r s = sem (BOr p r) s.
Proof. intros p r PL H s. rewrite sem_or, H by exact PL. destruct (sem r s); reflexivity. Qed.
Lemma sem_or_r : forall p r, plain p -> (forall s, sem r s = ([], false)) -> forall s, sem p s = sem (BOr p r) s.
Proof. intros p r PL H s. rewrite sem_or, H by exact PL. destruct (sem p s) as (l & [|]); [reflexivity|]. rewrite app_nil_r. reflexivity. Qed.
Lemma nc_ok : forall optim b c n b1 hc n', nc optim b c n b1 hc n' -> c < n -> Pi b b1 c hc n n' /\ Ai b b1 c hc.
Proof.
  intros optim b c n b1 hc n' H. induction H as [p vs c n|c n|c n|p q c n p1 h1 m q1 h2 n' H1 IH1 H2 IH2|p q c n p1 hp m q1 h n' H1 IH1 H2 IH2|p q c n p1 hp m q1 h n' H1 IH1 H2 IH2|p r c n h1 m b1 h n' NP H1 IH1 H2 IH2|p q r c n r1 h1 m p1 hp m2 q1 h2 n' H0 IH0 H1 IH1 H2 IH2|p q r c n r1 h1 m p1 hp m2 q1 h2 n' H0 IH0 H1 IH1 H2 IH2|p r c n h1 m r1 h2 n' PL H1 IH1 H2 IH2|p r c n p1 h1 m h2 n' PL H1 IH1 H2 IH2|p r c n p1 h1 m r1 h2 n' PL H1 IH1 H2 IH2]; intros Lc.
  - (* call *) assert (P : Pi (BCall p vs) (NCall p vs) c false n n).
    { intros rest r l gs fs k h Hc Hk HB s K out Hh Q. cbn [goal]. apply e_call. apply (call_ok h ((r, l, gs) :: fs) k); auto. apply HB. apply agree_refl. }
    split; [exact P|]. eapply A_of_P; [|exact P]. intros ? ? Qd. discriminate Qd.
  - (* fail *) assert (P : Pi BFail NFail c false n n) by (intros rest r l gs fs k h Hc Hk HB s K out Hh Q; cbn [goal]; apply e_fail; exact Q).
    split; [exact P|]. eapply A_of_P; [|exact P]. intros ? ? Qd. discriminate Qd.
  - (* ! *) assert (P : Pi BCut (NCut c) c true n n).
    { intros rest r l gs fs k h Hc Hk HB s K out Hh Q. destruct (Hc eq_refl) as (Hr & _). cbn [goal]. apply (e_cut _ _ _ _ _ h); auto. unfold res in *. cbn [Sugar_Spec.sem fst snd ke foldk] in *. rewrite seq_end in Q. rewrite seq_fst. cbn [fst]. rewrite app_nil_r.
      assert (EF : (match stop (snd (k s)) with Some _ => fst (k s) | None => fst (k s) end) = fst (k s)) by (destruct (stop (snd (k s))); reflexivity). rewrite EF.
      apply HB; [apply agree_refl|rewrite bottom_len by exact Hh; lia|]. rewrite <- (apply_stopat h h (k s) K (Hk s) (le_n _) Hh). unfold stopat, apply_eff in *. cbn [snd stop kills]. destruct (stop (snd (k s))); exact Q. }
    split; [exact P|]. eapply A_of_P; [|exact P]. intros ? ? Qd. discriminate Qd.
  - (* , *) destruct (IH1 Lc) as (P1 & _). pose proof (nc_le _ _ _ _ _ _ _ H1) as N1. pose proof (nc_le _ _ _ _ _ _ _ H2) as N2. destruct (IH2 ltac:(lia)) as (P2 & _).
    assert (P : Pi (BConj p q) (NConj p1 q1) c (h1 || h2) n n').
    { intros rest r l gs fs k h Hc Hk HB. apply (Beh_ext h _ (fun s => res p s (fun x => res q x k h) h)).
      - intros s K out Hh Q. cbn [goal]. apply e_conj. revert s K out Hh Q. apply P1.
        + intros Q. subst h1. destruct Hc as (Q1 & Q2); [reflexivity|]. split; [exact Q1|apply in_app_iff; auto].
        + apply res_wf; [exact Hk|lia].
        + intros r' Ag. apply P2; [|exact Hk|].
          * intros Q. destruct Hc as (Q1 & Q2); [apply or_true; auto|]. split; [rewrite (Ag c) by lia; exact Q1|apply in_app_iff; auto].
          * intros r'' Ag2. apply HB. apply (agree_trans n m n' n r r' r''); auto.
      - intros s. unfold res. cbn [Sugar_Spec.sem]. rewrite foldk_each. reflexivity. }
    split; [exact P|]. eapply A_of_P; [|exact P]. intros ? ? Qd. discriminate Qd.
  - (* -> *) pose proof (nc_le _ _ _ _ _ _ _ H1) as N1. pose proof (nc_le _ _ _ _ _ _ _ H2) as N2. destruct (IH1 ltac:(lia)) as (P1 & _). destruct (IH2 ltac:(lia)) as (P2 & _).
    assert (P : Pi (BIf p q) (NConj (NGetChoice n) (NConj p1 (NConj (NCut n) q1))) c h n n').
    { intros rest r l gs fs k h0 Hc Hk HB s K out Hh Q. cbn [goal nvars]. apply e_conj. apply e_choice. apply e_conj. set (HK := length K) in *.
      set (k' := fun x => stopat HK (res q x k h0)).
      assert (G : forall rest', (h = true -> In c rest') -> Beh HK ((set r n HK, l, goal p1 ((rest ++ [n]) ++ [n] ++ nvars q1) :: CConj (CCut n) (goal q1 rest') :: gs) :: fs) (fun s => res p s k' HK)).
      { intros rest' Hin. apply P1.
        - intros _. split; [apply set_eq|]. rewrite !in_app_iff. cbn [In]. auto.
        - intros x. apply (stopat_wf h0); [|exact Hh]. apply res_wf; [exact Hk|lia].
        - intros r' Ag x K1 out1 L1 Q1. apply e_conj. apply (e_cut _ _ _ _ _ HK); [rewrite (Ag n) by lia; apply set_eq|exact L1|]. unfold k' in Q1. rewrite (apply_stopat h0) in Q1; [|apply res_wf; [exact Hk|lia]|exact Hh|exact L1].
          assert (B : Beh h0 ((r', l, goal q1 rest' :: gs) :: fs) (fun x => res q x k h0)).
          { apply P2; [|exact Hk|].
            - intros Q'. destruct (Hc Q') as (Q2 & Q3). split; [rewrite (Ag c) by lia; unfold set; destruct (Nat.eqb_spec c n); [lia|exact Q2]|apply Hin; exact Q'].
            - intros r'' Ag2. apply HB. intros w Hw. rewrite (Ag2 w) by lia. rewrite (Ag w) by lia. unfold set. destruct (Nat.eqb_spec w n); [lia|reflexivity]. }
          apply (B x (bottom HK K1) out1); [rewrite bottom_len by exact L1; exact Hh|exact Q1]. }
      cbn [app] in G. specialize (G ((((rest ++ [n]) ++ nvars p1) ++ [n]))). 
      assert (IN : h = true -> In c (((rest ++ [n]) ++ nvars p1) ++ [n])) by (intros Q'; destruct (Hc Q') as (_ & Q3); rewrite !in_app_iff; auto).
      specialize (G IN s K out (le_n _)). unfold res in G, Q |- *. cbn [Sugar_Spec.sem] in Q |- *. destruct (fst (sem p s)) as [|x xs].
      - cbn [foldk fst snd ke] in *. apply G. destruct (snd (sem p s)); [|exact Q]. cbn [ke apply_eff stop kills killl fold_left]. unfold apply_eff. cbn. unfold HK. rewrite bottom_all. exact Q.
      - cbn [foldk] in G. rewrite seq_stop in G by apply stopat_stops. apply G. unfold k'. rewrite (apply_stopat h0); [|apply res_wf; [exact Hk|lia]|exact Hh|unfold HK; lia]. unfold HK. rewrite bottom_all. exact Q. }
    split; [exact P|]. eapply A_of_P; [|exact P]. intros ? ? Qd. discriminate Qd.
  - (* *-> *) pose proof (nc_le _ _ _ _ _ _ _ H1) as N1. pose proof (nc_le _ _ _ _ _ _ _ H2) as N2. destruct (IH1 ltac:(lia)) as (P1 & _). destruct (IH2 ltac:(lia)) as (P2 & _).
    assert (P : Pi (BSoft p q) (NConj (guard n hp p1) q1) c h n n').
    { intros rest r l gs fs k h0 Hc Hk HB. apply (Beh_ext h0 _ (fun s => foldk (fun x => res q x k h0) (fst (sem p s)) nothing)).
      - intros s K out Hh Q. cbn [goal]. apply e_conj. revert s K out Hh Q. apply (guard_ok p n (S n) p1 hp m P1); [lia|intros Q; apply (nc_no_cut _ _ _ _ _ _ _ H1 Q)|lia|apply res_wf; [exact Hk|lia]|].
        intros r' Ag. apply P2; [|exact Hk|].
        + intros Q. destruct (Hc Q) as (Q1 & Q2). split; [rewrite (Ag c) by lia; exact Q1|apply in_app_iff; auto].
        + intros r'' Ag2. apply HB. apply (agree_trans n m n' n r r' r''); auto; lia.
      - intros s. unfold res. cbn [Sugar_Spec.sem]. rewrite foldk_each. reflexivity. }
    split; [exact P|]. eapply A_of_P; [|exact P]. intros ? ? Qd. discriminate Qd.
  - (* else fail *) pose proof (nc_le _ _ _ _ _ _ _ H1) as N1. destruct (nc_is_fail _ _ _ _ _ _ H1) as (-> & F). destruct (IH2 ltac:(lia)) as (P & A). pose proof (sem_or_if p r NP F) as SE. split.
    + apply (Pi_sem p); [|exact SE]. apply (Pi_more _ _ _ h m n'); auto.
    + apply (Ai_sem p _ _ _ h); auto.
  - (* -> ; *) pose proof (nc_le _ _ _ _ _ _ _ H0) as N0. pose proof (nc_le _ _ _ _ _ _ _ H1) as N1. pose proof (nc_le _ _ _ _ _ _ _ H2) as N2. destruct (IH0 Lc) as (_ & A0). destruct (IH1 ltac:(lia)) as (P1 & _). destruct (IH2 ltac:(lia)) as (P2 & _).
    assert (A : Ai (BOr (BIf p q) r) (NOr (NConj (NGetLevel m) (NConj (guard (S m) hp p1) (NConj (NCut m) q1))) r1) c (h1 || h2)).
    { intros V e fs k h s K out Hc Hh Hk HB Q. set (HK := length K) in *. set (k' := fun x => stopat HK (res q x k h)). set (R := foldk k' (fst (sem p s)) nothing).
      assert (WR : Wk HK k') by (intros x; apply (stopat_wf h); [apply res_wf; [exact Hk|lia]|exact Hh]).
      assert (ER : fst (seq R (res r s k h)) = fst (res (BOr (BIf p q) r) s k h) /\ apply_eff (snd (seq R (res r s k h))) K = apply_eff (snd (res (BOr (BIf p q) r) s k h)) K).
      { unfold R, res at 2 4. cbn [Sugar_Spec.sem]. destruct (fst (sem p s)) as [|x xs]; [cbn [foldk]; rewrite seq_nothing; split; reflexivity|]. cbn [foldk]. rewrite !seq_stop by (rewrite ?seq_stop by apply stopat_stops; apply stopat_stops).
        split; [reflexivity|]. unfold k'. rewrite (apply_stopat h); [|apply res_wf; [exact Hk|lia]|exact Hh|unfold HK; lia]. unfold HK. rewrite bottom_all. reflexivity. }
      destruct ER as (E1 & E2). rewrite <- E1. rewrite <- E2 in Q. cbn [clauses]. apply (alts_ok r r1 c h1); auto.
      - intros Q1. apply Hc. apply or_true. auto.
      - apply foldk_wf; [exact WR|apply (ke_wf false HK HK); lia].
      - clear Q out E1 E2. intros K' out LK BK Q. cbn [goal]. apply e_conj. apply e_level. apply e_conj. fold HK. revert Q. unfold R.
        match goal with |- back _ _ -> exec ((_, _, [?g; ?g']) :: _) _ _ _ => set (G' := g') end.
        apply (guard_ok p (S m) (S (S m)) p1 hp m2 P1 ltac:(lia) (fun Q => nc_no_cut _ _ _ _ _ _ _ H1 Q) ltac:(lia) _ (set e m HK) HK [G'] fs k' HK WR); [|rewrite LK; fold HK; lia].
        intros r' Ag x K1 out1 L1 Q1. unfold G'. apply e_conj. apply (e_cut _ _ _ _ _ HK); [rewrite (Ag m) by lia; apply set_eq|exact L1|]. unfold k' in Q1. rewrite (apply_stopat h) in Q1; [|apply res_wf; [exact Hk|lia]|exact Hh|exact L1].
        match goal with |- exec ((_, _, [goal _ ?x]) :: _) _ _ _ => set (V' := x) end.
        apply (P2 V' r' HK [] fs k h); [|exact Hk|intros r'' _; apply Beh_ret; exact HB|rewrite bottom_len by exact L1; exact Hh|exact Q1].
        intros Q'. destruct Hc as (Q2 & Q3); [apply or_true; auto|]. split; [rewrite (Ag c) by lia; unfold set; destruct (Nat.eqb_spec c m); [lia|exact Q2]|]. unfold V'. rewrite !in_app_iff. auto. }
    split; [|exact A]. apply P_of_A; [|exact A]. intros Q. apply orb_true_iff in Q. destruct Q as [Q|Q].
    + apply in_app_iff. right. apply (nc_vars _ _ _ _ _ _ _ H0 Q).
    + cbn [nvars]. rewrite !in_app_iff. left. right. right. right. apply (nc_vars _ _ _ _ _ _ _ H2 Q).
  - (* *-> ; *) pose proof (nc_le _ _ _ _ _ _ _ H0) as N0. pose proof (nc_le _ _ _ _ _ _ _ H1) as N1. pose proof (nc_le _ _ _ _ _ _ _ H2) as N2. destruct (IH0 Lc) as (_ & A0). destruct (IH1 ltac:(lia)) as (P1 & _). destruct (IH2 ltac:(lia)) as (P2 & _).
    assert (A : Ai (BOr (BSoft p q) r) (NOr (NConj (NGetChoice m) (NConj (guard (S m) hp p1) (NConj (NSoft m) q1))) r1) c (h1 || h2)).
    { intros V e fs k h s K out Hc Hh Hk HB Q. set (HK := length K) in *. set (k0 := fun x => res q x k h). assert (W0 : Wk h k0) by (apply res_wf; [exact Hk|lia]). set (k' := fun x => alsokill (S HK) (k0 x)).
      assert (WR : Wk (S HK) k') by (intros x; apply (alsokill_wf _ h); [apply W0|lia]).
      cbn [clauses]. assert (NE : exists a l, clauses r1 V = a :: l) by (destruct r1; cbn; eauto). destruct NE as (a & l & NE). pose proof (A0 V e fs k h s K out) as G0. rewrite NE in *. cbn [map] in *.
      apply b_next. set (ALT := (s, (e, length K, [a]) :: fs) :: map (fun cd => (s, (e, length K, [cd]) :: fs)) l) in *.
      cbn [goal]. apply e_conj. apply e_choice. apply e_conj. cbn [length]. fold HK.
      match goal with |- exec ((_, _, [?g; ?g']) :: _) _ _ _ => set (G' := g') end.
      match goal with |- exec ((_, _, goal _ ?x :: _) :: _) _ _ _ => set (V0 := x) end.
      assert (B : Beh (S HK) ((set e m (S HK), HK, goal (guard (S m) hp p1) V0 :: [G']) :: fs) (fun s => foldk k' (fst (sem p s)) nothing)).
      { apply (guard_ok p (S m) (S (S m)) p1 hp m2 P1 ltac:(lia) (fun Q => nc_no_cut _ _ _ _ _ _ _ H1 Q) ltac:(lia) V0 (set e m (S HK)) HK [G'] fs k' (S HK) WR).
        intros r' Ag x K1 out1 L1 Q1. unfold G'. apply e_conj. apply (e_soft _ _ _ _ _ (S HK)); [rewrite (Ag m) by lia; apply set_eq|lia|].
        match goal with |- exec ((_, _, [goal _ ?x]) :: _) _ _ _ => set (V' := x) end.
        apply (P2 V' r' HK [] fs k h); [|exact Hk|intros r'' _; apply Beh_ret; exact HB|rewrite kill_len by lia; lia|exact Q1].
        intros Q'. destruct Hc as (Q2 & Q3); [apply or_true; auto|]. split; [rewrite (Ag c) by lia; unfold set; destruct (Nat.eqb_spec c m); [lia|exact Q2]|]. unfold V'. rewrite !in_app_iff. auto. }
      specialize (B s (ALT :: K)). cbn [length] in B. fold HK in B. pose proof (fun out => B out (le_n _)) as B'. clear B.
      unfold res in Q |- *. cbn [Sugar_Spec.sem] in Q |- *. destruct (fst (sem p s)) as [|x xs] eqn:ES.
      - cbn [foldk fst snd app] in B'. apply B'. rewrite apply_nothing. apply G0; auto. intros Q1. apply Hc. apply or_true. auto.
      - assert (XS : fst (sem p s) <> []) by (rewrite ES; discriminate). rewrite <- ES in *. rewrite foldk_each in *. change (ke false h) with nothing in *. fold (foldk k0) in *.
        destruct (foldk_alsokill (S HK) k0 h ALT (fst (sem p s)) K eq_refl Hh W0 XS) as (F1 & F2 & F3 & F4). fold k' in F1, F2, F3, F4. rewrite F1 in B'. apply B'. destruct (stop (snd (foldk k0 (fst (sem p s)) nothing))) eqn:E.
        + refine (eq_ind_r (fun z => back z out) _ (F4 _)); [exact Q|discriminate].
        + refine (eq_ind_r (fun z => back z out) _ (F3 eq_refl)). apply b_pop. exact Q. }
    split; [|exact A]. apply P_of_A; [|exact A]. intros Q. apply orb_true_iff in Q. destruct Q as [Q|Q].
    + apply in_app_iff. right. apply (nc_vars _ _ _ _ _ _ _ H0 Q).
    + cbn [nvars]. rewrite !in_app_iff. left. right. right. right. apply (nc_vars _ _ _ _ _ _ _ H2 Q).
  - (* fail ; *) pose proof (nc_le _ _ _ _ _ _ _ H1) as N1. destruct (nc_is_fail _ _ _ _ _ _ H1) as (-> & F). destruct (IH2 ltac:(lia)) as (P & A). pose proof (sem_or_l p r PL F) as SE. split.
    + apply (Pi_sem r); [|exact SE]. apply (Pi_more _ _ _ h2 m n'); auto.
    + apply (Ai_sem r _ _ _ h2); auto.
  - (* ; fail *) pose proof (nc_le _ _ _ _ _ _ _ H2) as N2. destruct (nc_is_fail _ _ _ _ _ _ H2) as (-> & F). destruct (IH1 Lc) as (P & A). pose proof (sem_or_r p r PL F) as SE. split.
    + apply (Pi_sem p); [|exact SE]. apply (Pi_more _ _ _ h1 n m); auto. intros ->. reflexivity.
    + apply (Ai_sem p _ _ _ h1); auto. intros ->. reflexivity.
  - (* ; *) pose proof (nc_le _ _ _ _ _ _ _ H1) as N1. destruct (IH1 Lc) as (P1 & _). destruct (IH2 ltac:(lia)) as (_ & A2).
    assert (A : Ai (BOr p r) (NOr p1 r1) c (h1 || h2)).
    { intros V e fs k h s K out Hc Hh Hk HB Q. rewrite res_or in * by exact PL. cbn [clauses]. apply (alts_ok r r1 c h2); auto.
      - intros Q1. apply Hc. apply or_true. auto.
      - apply (wf_mono h); [|exact Hh]. apply (res_wf p k h h Hk (le_n _)).
      - intros K' out' LK BK Q'. apply (P1 V e (length K) [] fs k h); [|exact Hk|intros r' _; apply Beh_ret; exact HB|lia|exact Q']. intros Q1. apply Hc. apply or_true. auto. }
    split; [|exact A]. apply P_of_A; [|exact A]. intros Q. apply in_app_iff. apply orb_true_iff in Q. destruct Q as [Q|Q]; [left; apply (nc_vars _ _ _ _ _ _ _ H1 Q)|right; apply (nc_vars _ _ _ _ _ _ _ H2 Q)].
Qed.

(** * Clauses and predicates *)
Notation runs := (runs St D). Notation psem := (psem St D). Notation no_env := (no_env).
Definition quiet (k : St -> list St) : St -> outc := fun x => (k x, nothing).
Lemma foldk_quiet : forall k xs e, foldk (quiet k) xs e = (flat_map k xs, e).
Proof. intros k xs (st & ks). induction xs as [|x xs IH]; [reflexivity|]. cbn [foldk flat_map]. rewrite IH. reflexivity. Qed.
Lemma res_quiet : forall b s k h, res b s (quiet k) h = (flat_map k (fst (sem b s)), ke (snd (sem b s)) h).
Proof. intros. apply foldk_quiet. Qed.
Lemma quiet_wf : forall k h, Wk h (quiet k).
Proof. intros k h x. apply (ke_wf false 0 h). lia. Qed.
Lemma clause_ok : forall optim head b fs k s A K0 out, runs fs k -> back (if snd (sem b s) then K0 else A ++ K0) out ->
  exec ((no_env, length K0, [sugar optim head b]) :: fs) s (A ++ K0) (flat_map k (fst (sem b s)) ++ out).
Proof.
  intros optim head b fs k s A K0 out HR Q. unfold sugar, normalize_cuts. set (c := first_new (head ++ bvars b)). destruct (ncuts optim b c (S c)) as ((b1 & hc) & n') eqn:E. apply ncuts_nc in E. set (h := length K0) in *.
  destruct (nc_ok _ _ _ _ _ _ _ E) as (P & _); [lia|].
  assert (HB : forall r l, Beh h ((r, l, []) :: fs) (quiet k)) by (intros r l x K o _ Q'; apply e_return; apply HR; exact Q').
  assert (HA : h <= length (A ++ K0)) by (rewrite app_length; lia).
  assert (Q' : back (apply_eff (snd (res b s (quiet k) h)) (A ++ K0)) out).
  { rewrite res_quiet. cbn [snd]. destruct (snd (sem b s)); [|exact Q]. change (back (bottom h (A ++ K0)) out). rewrite bottom_eq by reflexivity. exact Q. }
  replace (flat_map k (fst (sem b s))) with (fst (res b s (quiet k) h)) by (rewrite res_quiet; reflexivity).
  destruct hc.
  - cbn [goal]. apply e_conj. apply e_level. apply (P (head ++ [c]) (set no_env c h) h [] fs (quiet k) h); auto; [|apply quiet_wf]. intros _. split; [apply set_eq|]. apply in_app_iff. right. left. reflexivity.
  - apply (P head no_env h [] fs (quiet k) h); auto; [discriminate|apply quiet_wf].
Qed.
Lemma pred_ok : forall optim fs k s K out, runs fs k -> back K out -> forall bs,
  back (map (fun hb => (s, (no_env, length K, [sugar optim (fst hb) (snd hb)]) :: fs)) bs :: K) (flat_map k (psem (map snd bs) s) ++ out).
Proof.
  intros optim fs k s K out HR Q. induction bs as [|(hd & b) bs IH]; [apply b_pop; exact Q|]. cbn [map Sugar_Spec.psem fst snd]. destruct bs as [|hb bs].
  - apply b_last. cbn [map Sugar_Spec.psem]. pose proof (clause_ok optim hd b fs k s [] K out HR) as G. destruct (sem b s) as (l & [|]); cbn [fst snd app] in G |- *; [|rewrite app_nil_r]; apply G; exact Q.
  - cbn [map] in *. apply b_next. set (ALT := (s, (no_env, length K, [sugar optim (fst hb) (snd hb)]) :: fs) :: map (fun hb => (s, (no_env, length K, [sugar optim (fst hb) (snd hb)]) :: fs)) bs) in *.
    pose proof (clause_ok optim hd b fs k s [ALT] K) as G. destruct (sem b s) as (l & [|]); cbn [fst snd app] in G.
    + apply G; assumption.
    + rewrite flat_map_app, <- app_assoc. apply G; [exact HR|exact IH].
Qed.
(** * The machine is deterministic *)
Scheme exec_mut := Minimality for Sugar_Spec.exec Sort Prop with back_mut := Minimality for Sugar_Spec.back Sort Prop.
Combined Scheme exec_back from exec_mut, back_mut.
Lemma det : (forall fs s K o1, exec fs s K o1 -> forall o2, exec fs s K o2 -> o1 = o2) /\ (forall K o1, back K o1 -> forall o2, back K o2 -> o1 = o2).
Proof.
  apply (exec_back St D (fun fs s K o1 => forall o2, exec fs s K o2 -> o1 = o2) (fun K o1 => forall o2, back K o2 -> o1 = o2)).
  - intros s K out _ IH o2 E. inversion E; subst. f_equal. auto.
  - intros r l fs s K out _ IH o2 E. inversion E; subst. auto.
  - intros r l p vs gs fs s K out _ IH o2 E. inversion E; subst. auto.
  - intros r l gs fs s K out _ IH o2 E. inversion E; subst. auto.
  - intros r l a b gs fs s K out _ IH o2 E. inversion E; subst. auto.
  - intros r l vs cls gs fs s K out _ IH o2 E. inversion E; subst. auto.
  - intros r l v gs fs s K out _ IH o2 E. inversion E; subst. auto.
  - intros r l v gs fs s K out _ IH o2 E. inversion E; subst. auto.
  - intros r l v n gs fs s K out Hn _ _ IH o2 E. inversion E; subst. apply IH. congruence.
  - intros r l v n gs fs s K out Hn _ _ IH o2 E. inversion E; subst. apply IH. congruence.
  - intros o2 E. inversion E. reflexivity.
  - intros K out _ IH o2 E. inversion E; subst. auto.
  - intros s fs K out _ IH o2 E. inversion E; subst. auto.
  - intros s fs a l K out _ IH o2 E. inversion E; subst. auto.
Qed.
End Proofs.

(** * Arguments of the auxiliary predicates *)
Lemma cvars_clauses : forall b, (forall rest v, In v (cvars (goal b rest)) <-> In v (nvars b)) /\ (forall V v, In v (flat_map cvars (clauses b V)) <-> In v (nvars b)).
Proof.
  assert (T : forall b, (forall p q, b <> NOr p q) -> (forall rest v, In v (cvars (goal b rest)) <-> In v (nvars b)) -> (forall rest v, In v (cvars (goal b rest)) <-> In v (nvars b)) /\ (forall V v, In v (flat_map cvars (clauses b V)) <-> In v (nvars b))).
  { intros b N G. split; [exact G|]. intros V v. assert (E : clauses b V = [goal b V]) by (destruct b; try reflexivity; destruct (N b1 b2); reflexivity). rewrite E. cbn [flat_map]. rewrite app_nil_r. apply G. }
  induction b as [p vs| |p (P & _) q (Q & _)|p (P & _) q (_ & Q)|v|v|v|v]; try (apply T; [intros; discriminate|intros; reflexivity]).
  - apply T; [intros; discriminate|]. intros rest v. cbn [goal cvars nvars]. rewrite !in_app_iff, P, Q. reflexivity.
  - assert (C : forall V v, In v (flat_map cvars (clauses (NOr p q) V)) <-> In v (nvars (NOr p q))).
    { intros V v. cbn [clauses flat_map nvars]. rewrite !in_app_iff, P, Q. reflexivity. }
    split; [|exact C]. intros rest v. rewrite goal_or. cbn [cvars]. apply C.
Qed.
Definition all_scoped (vs : list nat) : list code -> Prop := fix all (cls : list code) : Prop := match cls with [] => True | c :: cls => scoped vs c /\ all cls end.
Lemma scoped_goal : forall b, (forall rest out, (forall v, In v rest <-> In v out) -> scoped out (goal b rest)) /\ (forall V, all_scoped V (clauses b V)).
Proof.
  assert (T : forall b, (forall p q, b <> NOr p q) -> (forall rest out, (forall v, In v rest <-> In v out) -> scoped out (goal b rest)) ->
    (forall rest out, (forall v, In v rest <-> In v out) -> scoped out (goal b rest)) /\ (forall V, all_scoped V (clauses b V))).
  { intros b N G. split; [exact G|]. intros V. assert (E : clauses b V = [goal b V]) by (destruct b; try reflexivity; destruct (N b1 b2); reflexivity). rewrite E. split; [|exact Logic.I]. apply G. reflexivity. }
  induction b as [p vs| |p (P & _) q (Q & _)|p (P & _) q (_ & Q)|v|v|v|v]; try (apply T; [intros; discriminate|intros; exact Logic.I]).
  - apply T; [intros; discriminate|]. intros rest out H. cbn [goal scoped]. split.
    + apply P. intros v. rewrite !in_app_iff, H. rewrite (proj1 (cvars_clauses q)). reflexivity.
    + apply Q. intros v. rewrite !in_app_iff, H. rewrite (proj1 (cvars_clauses p)). reflexivity.
  - assert (C : forall V, all_scoped V (clauses (NOr p q) V)) by (intros V; split; [apply P; reflexivity|apply Q]).
    split; [|exact C]. intros rest out H. rewrite goal_or. cbn [scoped]. split; [unfold inter; apply NoDup_filter; apply NoDup_nodup|]. split; [|apply C].
    intros v. rewrite in_inter, H. rewrite (proj2 (cvars_clauses (NOr p q))). reflexivity.
Qed.
Lemma sugar_scoped : forall optim head b, scoped head (sugar optim head b).
Proof. intros. apply (proj1 (scoped_goal _)). reflexivity. Qed.
