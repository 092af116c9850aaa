(** Doubly linked chains of clauses. *)
Require Import ZArith List Bool Lia Arith.
Require Import Verif.Heap_Model Verif.Dyn_Model.
Import ListNotations.

Lemma upd_eq {A} (f : nat -> A) x v : upd f x v x = v.
Proof. unfold upd. now rewrite Nat.eqb_refl. Qed.
Lemma upd_neq {A} (f : nat -> A) x v y : y <> x -> upd f x v y = f y.
Proof. intros N. unfold upd. now rewrite (proj2 (Nat.eqb_neq y x)). Qed.

(** ** Segments *)
Definition nxt (l : list nat) (nx : option nat) : option nat := match l with [] => nx | y :: _ => Some y end.
Fixpoint lst (pv : option nat) (l : list nat) : option nat := match l with [] => pv | x :: l => lst (Some x) l end.
Fixpoint seg (f : nat -> option cell) (pv : option nat) (l : list nat) (nx : option nat) : Prop :=
  match l with [] => True | x :: l => f x = Some (Cell (nxt l nx) pv) /\ seg f (Some x) l nx end.
Lemma nxt_app a b nx : nxt (a ++ b) nx = nxt a (nxt b nx).
Proof. now destruct a. Qed.
Lemma lst_app pv a b : lst pv (a ++ b) = lst (lst pv a) b.
Proof. revert pv. induction a; cbn; auto. Qed.
Lemma seg_app f a : forall pv b nx, seg f pv (a ++ b) nx <-> seg f pv a (nxt b nx) /\ seg f (lst pv a) b nx.
Proof.
  induction a as [|x a IH]; intros pv b nx; cbn; [tauto|]. rewrite IH, nxt_app. tauto.
Qed.
Lemma seg_ext f g l : forall pv nx, (forall x, In x l -> f x = g x) -> seg f pv l nx -> seg g pv l nx.
Proof.
  induction l as [|x l IH]; intros pv nx E S; [exact I|]. destruct S as [S1 S2]. split; [rewrite <- E; [exact S1|now left]|]. apply IH; [intros y Hy; apply E; now right|exact S2].
Qed.
Lemma seg_in f l : forall pv nx x, seg f pv l nx -> In x l -> exists a b, l = a ++ x :: b /\ f x = Some (Cell (nxt b nx) (lst pv a)).
Proof.
  intros pv nx x S H. apply in_split in H. destruct H as [a [b ->]]. exists a, b. split; [reflexivity|]. apply seg_app in S. apply S.
Qed.
Definition chain_ok (f : nat -> option cell) (h : hdr) (l : list nat) : Prop := h_first h = nxt l None /\ h_last h = lst None l /\ seg f None l None.
Lemma chain_ext f g h l : (forall x, In x l -> f x = g x) -> chain_ok f h l -> chain_ok g h l.
Proof. intros E [H1 [H2 H3]]. repeat split; auto. now apply (seg_ext f). Qed.
Lemma lst_snoc pv a x : lst pv (a ++ [x]) = Some x.
Proof. now rewrite lst_app. Qed.
Lemma lst_some l x : lst None l = Some x -> exists a, l = a ++ [x].
Proof.
  destruct l as [|y l] using rev_ind; [discriminate|]. rewrite lst_snoc. injection 1 as ->. eauto.
Qed.
(** insertion at the front *)
Lemma seg_front f g x l : ~ In x l -> NoDup l -> seg f None l None ->
  g x = Some (Cell (nxt l None) None) -> (forall y, In y l -> nxt l None <> Some y -> g y = f y) ->
  (forall y v, nxt l None = Some y -> f y = Some v -> g y = Some (Cell (c_next v) (Some x))) -> seg g None (x :: l) None.
Proof.
  intros N ND S Gx Go Gf. split; [exact Gx|]. destruct l as [|y l]; [exact I|]. destruct S as [S1 S2]. split; [rewrite (Gf y _ eq_refl S1); reflexivity|].
  apply (seg_ext f); [|exact S2]. intros z Hz. symmetry. apply Go; [now right|]. cbn. intros [= ->]. now inversion ND.
Qed.
(** insertion at the back *)
Lemma seg_back f g x l : ~ In x l -> NoDup l -> seg f None l None ->
  g x = Some (Cell None (lst None l)) -> (forall y, In y l -> lst None l <> Some y -> g y = f y) ->
  (forall y v, lst None l = Some y -> f y = Some v -> g y = Some (Cell (Some x) (c_prev v))) -> seg g None (l ++ [x]) None.
Proof.
  intros N ND S Gx Go Gf. apply seg_app. split; [|split; [exact Gx|exact I]]. cbn [nxt]. destruct l as [|y l] using rev_ind; [exact I|]. clear IHl.
  apply seg_app in S. cbn [nxt] in S. destruct S as [S1 [S2 _]]. apply seg_app. cbn [nxt]. rewrite lst_snoc in *. split; [|split; [|exact I]].
  - apply (seg_ext f); [|exact S1]. intros z Hz. symmetry. apply Go; [apply in_or_app; now left|]. intros [= ->]. apply NoDup_remove_2 in ND. rewrite app_nil_r in ND. contradiction.
  - now rewrite (Gf y _ eq_refl S2).
Qed.
(** removal *)
Lemma seg_remove f g x a b : NoDup (a ++ x :: b) -> seg f None (a ++ x :: b) None ->
  (forall y, In y (a ++ b) -> lst None a <> Some y -> nxt b None <> Some y -> g y = f y) ->
  (forall y v, lst None a = Some y -> f y = Some v -> g y = Some (Cell (nxt b None) (c_prev v))) ->
  (forall y v, nxt b None = Some y -> f y = Some v -> g y = Some (Cell (c_next v) (lst None a))) -> seg g None (a ++ b) None.
Proof.
  intros ND S Go Ga Gb. apply seg_app in S. cbn [nxt] in S. destruct S as [S1 S2]. destruct S2 as [S2 S3]. apply seg_app.
  assert (NDab : NoDup (a ++ b)) by (eapply NoDup_remove_1; eauto). split.
  - destruct a as [|y a] using rev_ind; [exact I|]. clear IHa. apply seg_app in S1. cbn [nxt] in S1. destruct S1 as [T1 [T2 _]]. rewrite lst_snoc in *. apply seg_app. cbn [nxt]. split; [|split; [|exact I]].
    + apply (seg_ext f); [|exact T1]. intros z Hz. symmetry. rewrite <- app_assoc in NDab. apply Go; [apply in_or_app; left; apply in_or_app; now left| |].
      * intros [= ->]. apply NoDup_remove_2 in NDab. apply NDab, in_or_app. now left.
      * destruct b as [|w b]; cbn; [discriminate|]. intros [= ->]. cbn in NDab. assert (ND2 : NoDup ((a ++ [y]) ++ z :: b)) by now rewrite <- app_assoc. apply NoDup_remove_2 in ND2. apply ND2, in_or_app. left. apply in_or_app. now left.
    + now rewrite (Ga y _ eq_refl T2).
  - destruct b as [|w b]; [exact I|]. destruct S3 as [T1 T2]. split.
    + now rewrite (Gb w _ eq_refl T1).
    + apply (seg_ext f); [|exact T2]. intros z Hz. symmetry. apply Go; [apply in_or_app; right; now right| |].
      * intros E. apply lst_some in E. destruct E as [a' ->]. rewrite <- app_assoc in NDab. cbn in NDab. apply NoDup_remove_2 in NDab. apply NDab, in_or_app. right. now right.
      * cbn. intros [= ->]. apply NoDup_remove_2 in NDab. apply NDab, in_or_app. now right.
Qed.

(** ** The functions on chains *)
Definition cf (f : nat -> option clause) (k : chain) (x : nat) : option cell := option_map (cell_of k) (f x).
(** only the cells of a chain changed *)
Definition recell (k : chain) (c c' : clause) : Prop := c' = set_cell k c (cell_of k c').
Definition rest (s : st) := (nextc s, nextd s, pdyn s, fdyn s, longest s, nb_erased s, stk s, env s, cur s).
Lemma recell_refl k c : recell k c c.
Proof. unfold recell. destruct k, c; reflexivity. Qed.
Lemma recell_set k c v : recell k c (set_cell k c v).
Proof. unfold recell. destruct k, c; reflexivity. Qed.
Lemma cell_set k c v : cell_of k (set_cell k c v) = v.
Proof. destruct k; reflexivity. Qed.
Lemma chain_eqb_refl k : chain_eqb k k = true.
Proof. destruct k; cbn; auto using Z.eqb_refl. Qed.
Lemma chain_eqb_eq k k' : chain_eqb k k' = true <-> k = k'.
Proof. destruct k, k'; cbn; split; intros H; try discriminate; try reflexivity; try (apply Z.eqb_eq in H; now subst); injection H as ->; apply Z.eqb_refl. Qed.
Lemma set_hd_eq D k h : d_hd (set_hd D k h) k = h.
Proof. cbn. now rewrite chain_eqb_refl. Qed.
Lemma set_hd_neq D k h k' : k' <> k -> d_hd (set_hd D k h) k' = d_hd D k'.
Proof. intros N. cbn. destruct (chain_eqb k' k) eqn:E; [apply chain_eqb_eq in E; contradiction|reflexivity]. Qed.

Lemma add_ok s d k x front D h l c : dyns s d = Some D -> d_hd D k = Some h -> NoDup l -> chain_ok (cf (cls s) k) h l -> cls s x = Some c -> ~ In x l ->
  exists s' h', Add_To_2Chain s d k x front = Ret s' /\ rest s' = rest s /\ (forall e, dyns s' e = upd (dyns s) d (Some (set_hd D k (Some h'))) e) /\
    (forall y, ~ In y (x :: l) -> cls s' y = cls s y) /\ (forall y c, cls s y = Some c -> exists c', cls s' y = Some c' /\ recell k c c') /\
    chain_ok (cf (cls s') k) h' (if front then x :: l else l ++ [x]) /\ h_scan h' = match l with [] => Some x | _ => if front then Some x else h_scan h end.
Proof.
  intros Hd Hh ND [F [La S]] Hx Nx. unfold Add_To_2Chain, geth, getd. rewrite Hd. cbn [bind]. rewrite Hh. cbn [bind]. rewrite F.
  destruct l as [|f l]; cbn [nxt].
  - unfold puth, getd. rewrite Hd. cbn [bind]. unfold put_cell, getc. cbn. rewrite Hx. cbn. eexists _, _. split; [reflexivity|]. split; [reflexivity|]. split; [reflexivity|]. split; [|split; [|split; [|reflexivity]]].
    + intros y Hy. cbn. apply upd_neq. intros ->. apply Hy. now left.
    + intros y c' Hy. cbn. destruct (Nat.eq_dec y x) as [->|N]; [rewrite upd_eq; rewrite Hx in Hy; injection Hy as <-; eexists; split; [reflexivity|apply recell_set]|]. rewrite upd_neq by auto. exists c'. split; [exact Hy|apply recell_refl].
    + replace (if front then [x] else [x]) with [x] by (now destruct front). split; [reflexivity|]. split; [reflexivity|]. cbn. split; [|exact I]. unfold cf. cbn. rewrite upd_eq. cbn. now rewrite cell_set.
  - assert (Cf : exists cf0, cls s f = Some cf0 /\ cell_of k cf0 = Cell (nxt l None) None).
    { destruct S as [S1 _]. unfold cf in S1. destruct (cls s f) as [c0|]; [|discriminate]. cbn in S1. injection S1 as S1. eauto. }
    destruct Cf as [c0 [Hf Ec0]]. assert (Nf : f <> x) by (intros ->; apply Nx; now left).
    destruct front.
    + unfold put_cell, getc. rewrite Hx. cbn [bind]. unfold puth, getd. cbn [dyns putc with_cls]. rewrite Hd. cbn [bind]. unfold upd_prev, getc. cbn [cls putd with_dyns putc with_cls]. rewrite upd_neq by auto. rewrite Hf. cbn [bind].
      eexists _, _. split; [reflexivity|]. split; [reflexivity|]. split; [reflexivity|]. split; [|split; [|split; [|reflexivity]]].
      * intros y Hy. cbn. rewrite !upd_neq; [reflexivity| |]; intros ->; apply Hy; cbn; auto.
      * intros y c' Hy. cbn. destruct (Nat.eq_dec y f) as [->|N1]; [rewrite upd_eq; rewrite Hf in Hy; injection Hy as <-; eexists; split; [reflexivity|apply recell_set]|]. rewrite upd_neq by auto.
        destruct (Nat.eq_dec y x) as [->|N2]; [rewrite upd_eq; rewrite Hx in Hy; injection Hy as <-; eexists; split; [reflexivity|apply recell_set]|]. rewrite upd_neq by auto. exists c'. split; [exact Hy|apply recell_refl].
      * split; [reflexivity|]. split; [exact La|]. apply (seg_front (cf (cls s) k)); auto; unfold cf; cbn.
        -- rewrite upd_neq by auto. rewrite upd_eq. cbn. now rewrite cell_set.
        -- intros y Hy N. rewrite !upd_neq; [reflexivity| |]; [intros ->; contradiction|congruence].
        -- intros y v [= <-]. rewrite upd_eq, Hf. cbn. rewrite cell_set. intros [= <-]. reflexivity.
    + rewrite La. cbn [lst]. destruct (lst None (f :: l)) as [z|] eqn:Ez; cbn [lst] in Ez; rewrite Ez; [|exfalso; clear - Ez; revert f Ez; induction l; cbn; intros; [discriminate|eauto]].
      assert (Iz : In z (f :: l)). { destruct (lst_some (f :: l) z Ez) as [a ->]. apply in_or_app. right. now left. }
      assert (Nz : z <> x) by congruence.
      destruct (seg_in _ _ _ _ _ S Iz) as [a [b [El Ec]]]. unfold cf in Ec. destruct (cls s z) as [cz|] eqn:Hz; [|discriminate]. cbn in Ec. injection Ec as Ec.
      unfold upd_next, getc. rewrite Hz. cbn [bind]. unfold put_cell, getc. cbn [cls putc with_cls]. rewrite upd_neq by auto. rewrite Hx. cbn [bind]. unfold puth, getd. cbn [dyns putc with_cls]. rewrite Hd. cbn [bind].
      eexists _, _. split; [reflexivity|]. split; [reflexivity|]. split; [reflexivity|]. split; [|split; [|split; [|reflexivity]]].
      * intros y Hy. cbn. rewrite !upd_neq; [reflexivity| |]; intros ->; apply Hy; cbn; auto.
      * intros y c' Hy. cbn. destruct (Nat.eq_dec y x) as [->|N1]; [rewrite upd_eq; rewrite Hx in Hy; injection Hy as <-; eexists; split; [reflexivity|apply recell_set]|]. rewrite upd_neq by auto.
        destruct (Nat.eq_dec y z) as [->|N2]; [rewrite upd_eq; rewrite Hz in Hy; injection Hy as <-; eexists; split; [reflexivity|apply recell_set]|]. rewrite upd_neq by auto. exists c'. split; [exact Hy|apply recell_refl].
      * split; [reflexivity|]. split; [cbn [h_last]; now rewrite lst_snoc|]. apply (seg_back (cf (cls s) k)); auto; unfold cf; cbn [cls putd with_dyns putc with_cls].
        -- rewrite upd_eq. cbn. now rewrite cell_set, Ez.
        -- intros y Hy N. cbn [lst] in N. rewrite Ez in N. rewrite !upd_neq; [reflexivity| |]; [congruence|intros ->; contradiction].
        -- intros y v. cbn [lst]. rewrite Ez. intros [= <-]. rewrite upd_neq by auto. rewrite upd_eq, Hz. cbn. rewrite cell_set. intros [= <-]. reflexivity.
Qed.
Definition drest (D : dynp) := (count_a D, count_z D, curr_stamp D, d_erased D, d_next D).
Definition dhd (D D' : dynp) (k : chain) (h : hdr) : Prop := d_hd D' k = Some h /\ (forall k', k' <> k -> d_hd D' k' = d_hd D k') /\ drest D' = drest D.
Lemma dhd_set D k h : dhd D (set_hd D k (Some h)) k h.
Proof. split; [apply set_hd_eq|]. split; [intros k' N; now apply set_hd_neq|reflexivity]. Qed.
Lemma dhd_trans D D1 D2 k h1 h2 : dhd D D1 k h1 -> dhd D1 D2 k h2 -> dhd D D2 k h2.
Proof. intros [_ [A B]] [C [E F]]. split; [exact C|]. split; [intros k' N; rewrite E by auto; now apply A|congruence]. Qed.

Lemma remove_ok s d k x D h a b : dyns s d = Some D -> d_hd D k = Some h -> NoDup (a ++ x :: b) -> chain_ok (cf (cls s) k) h (a ++ x :: b) ->
  exists s' D' h', Remove_From_2Chain s d k x = Ret s' /\ rest s' = rest s /\ (forall e, dyns s' e = upd (dyns s) d (Some D') e) /\ dhd D D' k h' /\
    (forall y, ~ In y (a ++ b) -> cls s' y = cls s y) /\ (forall y c, cls s y = Some c -> exists c', cls s' y = Some c' /\ recell k c c') /\
    cf (cls s) k x = Some (Cell (nxt b None) (lst None a)) /\
    chain_ok (cf (cls s') k) h' (a ++ b) /\ h_scan h' = match a with [] => nxt b None | _ => h_scan h end.
Proof.
  intros Hd Hh ND [F [La S]].
  destruct (seg_app (cf (cls s) k) a None (x :: b) None) as [S1 _]. specialize (S1 S). destruct S1 as [Sa [Sx Sb]].
  assert (Nx : ~ In x (a ++ b)) by (apply NoDup_remove_2 in ND; exact ND).
  unfold Remove_From_2Chain. unfold cf in Sx. destruct (cls s x) as [c|] eqn:Hx; [|discriminate]. cbn in Sx. injection Sx as Sx.
  unfold getc at 1. rewrite Hx. cbn [bind]. rewrite Sx. cbn [c_prev c_next].
  unfold geth at 1, getd. rewrite Hd. cbn [bind]. rewrite Hh. cbn [bind].
  (* first half *)
  assert (P1 : exists s1 D1 h1, match lst None a with None => puth s d k (Hdr (nxt b None) (nxt b None) (h_last h)) | Some p => upd_next s k p (nxt b None) end = Ret s1 /\
     rest s1 = rest s /\ (forall e, dyns s1 e = upd (dyns s) d (Some D1) e) /\ dhd D D1 k h1 /\ h_first h1 = nxt (a ++ b) None /\ h_last h1 = h_last h /\ h_scan h1 = match a with [] => nxt b None | _ => h_scan h end /\
     (forall y, lst None a <> Some y -> cls s1 y = cls s y) /\ (forall y c, lst None a = Some y -> cls s y = Some c -> cls s1 y = Some (set_cell k c (Cell (nxt b None) (c_prev (cell_of k c)))))).
  { destruct a as [|p a _] using rev_ind.
    - cbn [lst]. unfold puth, getd. rewrite Hd. cbn [bind]. eexists _, _, _. split; [reflexivity|]. split; [reflexivity|]. split; [reflexivity|]. split; [apply dhd_set|]. split; [reflexivity|]. split; [reflexivity|]. split; [reflexivity|]. split; [reflexivity|discriminate].
    - rewrite lst_snoc. assert (Ip : exists cp, cls s p = Some cp). { apply seg_app in Sa. cbn [nxt] in Sa. destruct Sa as [_ [Sp _]]. unfold cf in Sp. destruct (cls s p); [eauto|discriminate]. }
      destruct Ip as [cp Hp]. unfold upd_next, getc. rewrite Hp. cbn [bind]. exists (putc s p (set_cell k cp (Cell (nxt b None) (c_prev (cell_of k cp))))), D, h. split; [reflexivity|]. split; [reflexivity|].
      split; [intros e; cbn; destruct (Nat.eq_dec e d) as [->|N]; [now rewrite upd_eq|now rewrite upd_neq]|]. split; [split; [exact Hh|split; reflexivity]|]. split; [rewrite F; now rewrite !nxt_app|]. split; [reflexivity|]. split; [now destruct a|].
      split; [intros y N; cbn; apply upd_neq; congruence|]. intros y c1 [= <-] H1. cbn. rewrite upd_eq. congruence. }
  destruct P1 as [s1 [D1 [h1 [E1 [R1 [Dy1 [H1 [F1 [L1 [Sc1 [C1 C1']]]]]]]]]]]. rewrite E1. cbn [bind]. unfold geth at 1, getd. rewrite Dy1, upd_eq. cbn [bind]. destruct H1 as [H1 [H1' H1'']]. rewrite H1. cbn [bind].
  assert (P2 : exists s2 D2 h2, match nxt b None with None => puth s1 d k (Hdr (h_first h1) (h_scan h1) (lst None a)) | Some n => upd_prev s1 k n (lst None a) end = Ret s2 /\
     rest s2 = rest s1 /\ (forall e, dyns s2 e = upd (dyns s1) d (Some D2) e) /\ dhd D1 D2 k h2 /\ h_first h2 = h_first h1 /\ h_last h2 = lst None (a ++ b) /\ h_scan h2 = h_scan h1 /\
     (forall y, nxt b None <> Some y -> cls s2 y = cls s1 y) /\ (forall y c, nxt b None = Some y -> cls s1 y = Some c -> cls s2 y = Some (set_cell k c (Cell (c_next (cell_of k c)) (lst None a))))).
  { destruct b as [|n b].
    - cbn [nxt]. unfold puth, getd. rewrite Dy1, upd_eq. cbn [bind]. eexists _, _, _. split; [reflexivity|]. split; [reflexivity|]. split; [reflexivity|]. split; [apply dhd_set|]. split; [reflexivity|]. split; [now rewrite app_nil_r|]. split; [reflexivity|]. split; [reflexivity|discriminate].
    - cbn [nxt]. assert (In1 : exists cn, cls s n = Some cn). { destruct Sb as [Sn _]. unfold cf in Sn. destruct (cls s n); [eauto|discriminate]. }
      destruct In1 as [cn Hn]. rewrite <- (C1 n) in Hn.
      2:{ intros E. apply lst_some in E. destruct E as [a' ->]. rewrite <- app_assoc in ND. cbn in ND. apply NoDup_remove_2 in ND. apply ND, in_or_app. right. right. now left. }
      unfold upd_prev, getc. rewrite Hn. cbn [bind]. exists (putc s1 n (set_cell k cn (Cell (c_next (cell_of k cn)) (lst None a)))), D1, h1. split; [reflexivity|]. split; [reflexivity|].
      split; [intros e; cbn; destruct (Nat.eq_dec e d) as [->|N]; [now rewrite upd_eq, Dy1, upd_eq|now rewrite upd_neq]|]. split; [split; [exact H1|split; reflexivity]|]. split; [reflexivity|]. split; [rewrite L1, La; now rewrite !lst_app|]. split; [reflexivity|].
      split; [intros y N; cbn; apply upd_neq; congruence|]. intros y c1 [= <-] H2. cbn. rewrite upd_eq. congruence. }
  destruct P2 as [s2 [D2 [h2 [E2 [R2 [Dy2 [H2 [F2 [L2 [Sc2 [C2 C2']]]]]]]]]]]. exists s2, D2, h2.
  assert (Xa : forall y, lst None a = Some y -> In y a) by (intros y E; apply lst_some in E; destruct E as [a' ->]; apply in_or_app; right; now left).
  assert (Xb : forall y, nxt b None = Some y -> In y b) by (intros y E; destruct b; [discriminate|injection E as ->; now left]).
  assert (NDab : NoDup (a ++ b)) by (eapply NoDup_remove_1; eauto).
  assert (Xab : forall y, lst None a = Some y -> nxt b None <> Some y).
  { intros y A B. apply Xa in A. apply Xb in B. apply in_split in B. destruct B as [b1 [b2 ->]]. rewrite app_assoc in NDab. apply NoDup_remove_2 in NDab. apply NDab. apply in_or_app. left. apply in_or_app. now left. }
  split; [exact E2|]. split; [congruence|]. split; [intros e; rewrite Dy2; destruct (Nat.eq_dec e d) as [->|N]; [now rewrite !upd_eq|rewrite !upd_neq by auto; rewrite Dy1; now rewrite upd_neq]|].
  split; [apply (dhd_trans D D1 D2 k h1 h2); [repeat split; auto|exact H2]|].
  split; [intros y Hy; rewrite C2, C1; [reflexivity| |]; intros E; apply Hy, in_or_app; auto|].
  assert (Cs : forall y, (lst None a <> Some y -> nxt b None <> Some y -> cls s2 y = cls s y) /\ (forall c, lst None a = Some y -> cls s y = Some c -> cls s2 y = Some (set_cell k c (Cell (nxt b None) (c_prev (cell_of k c))))) /\ (forall c, nxt b None = Some y -> cls s y = Some c -> cls s2 y = Some (set_cell k c (Cell (c_next (cell_of k c)) (lst None a))))).
  { intros y. split; [|split].
    - intros A B. now rewrite C2, C1.
    - intros c1 A B. rewrite C2 by auto. now apply C1'.
    - intros c1 A B. apply C2'; [exact A|]. rewrite C1; [exact B|]. intros E. exact (Xab y E A). }
  split.
  { intros y c1 Hy. destruct (Cs y) as [A [B C]]. destruct (option_map (Nat.eqb y) (lst None a)) as [[|]|] eqn:E1'.
    - destruct (lst None a) as [z|] eqn:Ez; [|discriminate]. cbn in E1'. injection E1' as E1'. apply Nat.eqb_eq in E1'. subst z. eexists. split; [apply (B c1); auto|apply recell_set].
    - destruct (nxt b None) as [z|] eqn:Ez.
      + destruct (Nat.eq_dec z y) as [->|N]; [eexists; split; [apply (C c1); auto|apply recell_set]|]. exists c1. split; [rewrite A; [exact Hy| |congruence]|apply recell_refl]. destruct (lst None a); [|discriminate]. cbn in E1'. injection E1' as E1'. apply Nat.eqb_neq in E1'. congruence.
      + exists c1. split; [rewrite A; [exact Hy| |congruence]|apply recell_refl]. destruct (lst None a); [|discriminate]. cbn in E1'. injection E1' as E1'. apply Nat.eqb_neq in E1'. congruence.
    - destruct (lst None a) eqn:El; [discriminate|]. destruct (nxt b None) as [z|] eqn:Ez.
      + destruct (Nat.eq_dec z y) as [->|N]; [eexists; split; [apply (C c1); auto|apply recell_set]|]. exists c1. split; [rewrite A; [exact Hy| |]; congruence|apply recell_refl].
      + exists c1. split; [rewrite A; [exact Hy| |]; congruence|apply recell_refl]. }
  split; [unfold cf; rewrite Hx; cbn; now rewrite Sx|]. split; [|congruence].
  split; [congruence|]. split; [congruence|].
  apply (seg_remove (cf (cls s) k) _ x); auto; unfold cf.
  - intros y Hy A B. destruct (Cs y) as [E _]. now rewrite E.
  - intros y v A B. destruct (Cs y) as [_ [E _]]. destruct (cls s y) as [cy|]; [|discriminate]. cbn in B. injection B as <-. rewrite (E cy) by auto. cbn. now rewrite cell_set.
  - intros y v A B. destruct (Cs y) as [_ [_ E]]. destruct (cls s y) as [cy|]; [|discriminate]. cbn in B. injection B as <-. rewrite (E cy) by auto. cbn. now rewrite cell_set.
Qed.
