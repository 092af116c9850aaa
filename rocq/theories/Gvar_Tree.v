(** Proofs for C38, C39: what the blocks contain, with the saved values. *)
Require Import ZArith List Bool Arith Lia.
Require Import Verif.Heap_Model Verif.Gvar_Model Verif.Gvar_Spec.
Import ListNotations.
Open Scope nat_scope.

(** the content of an element ([Ls]: elements with the values that will be restored, last
    first) *)
Inductive T : Type :=
| TWord (w : gword)
| TCopy (b : nat) (w : gword)
| TArr (b : nat) (l : Ls) (d : D)
with Ls : Type := LNil | LCons (t : T) (h : Hs) (r : Ls)
with Hs : Type := HNil | HCons (u : nat) (t : T) (r : Hs)
with D : Type := DNone | DEnd | DSome (t : T).
Scheme T_mi := Induction for T Sort Prop
with Ls_mi := Induction for Ls Sort Prop
with Hs_mi := Induction for Hs Sort Prop
with D_mi := Induction for D Sort Prop.
Combined Scheme tree_ind from T_mi, Ls_mi, Hs_mi, D_mi.

Fixpoint lenL (l : Ls) : nat := match l with LNil => 0 | LCons _ _ r => S (lenL r) end.
Definition hdu (h : Hs) : option nat := match h with HNil => None | HCons u _ _ => Some u end.
Definition sent (d : D) : nat := match d with DNone => 0 | _ => 1 end.
Definition cof (t : T) : content :=
  match t with TWord w => CLink w | TCopy b _ => CCopy b | TArr b l _ => CArr (lenL l) b end.

(** the blocks *)
Fixpoint idsT (t : T) : list nat :=
  match t with TWord _ => [] | TCopy b _ => [b] | TArr b l d => b :: idsL l ++ idsD d end
with idsL (l : Ls) : list nat :=
  match l with LNil => [] | LCons t h r => idsT t ++ idsH h ++ idsL r end
with idsH (h : Hs) : list nat :=
  match h with HNil => [] | HCons _ t r => idsT t ++ idsH r end
with idsD (d : D) : list nat := match d with DSome t => idsT t | _ => [] end.
(** the undo records *)
Fixpoint uidsT (t : T) : list nat :=
  match t with TArr _ l d => uidsL l ++ uidsD d | _ => [] end
with uidsL (l : Ls) : list nat :=
  match l with LNil => [] | LCons t h r => uidsT t ++ uidsH h ++ uidsL r end
with uidsH (h : Hs) : list nat :=
  match h with HNil => [] | HCons u t r => u :: uidsT t ++ uidsH r end
with uidsD (d : D) : list nat := match d with DSome t => uidsT t | _ => [] end.

(** without the saved values, and these *)
Fixpoint idsC (t : T) : list nat :=
  match t with TWord _ => [] | TCopy b _ => [b] | TArr b l d => b :: idsCL l ++ idsCD d end
with idsCL (l : Ls) : list nat :=
  match l with LNil => [] | LCons t _ r => idsC t ++ idsCL r end
with idsCD (d : D) : list nat := match d with DSome t => idsC t | _ => [] end.
Fixpoint uH (h : Hs) : list nat := match h with HNil => [] | HCons u _ r => u :: uH r end.
Fixpoint uidsC (t : T) : list nat :=
  match t with TArr _ l d => uidsCL l ++ uidsCD d | _ => [] end
with uidsCL (l : Ls) : list nat :=
  match l with LNil => [] | LCons t h r => uH h ++ uidsC t ++ uidsCL r end
with uidsCD (d : D) : list nat := match d with DSome t => uidsC t | _ => [] end.
Fixpoint savH (h : Hs) : list T := match h with HNil => [] | HCons _ t r => t :: savH r end.
Fixpoint savT (t : T) : list T :=
  match t with TArr _ l d => savL l ++ savD d | _ => [] end
with savL (l : Ls) : list T :=
  match l with LNil => [] | LCons t h r => savH h ++ savT t ++ savL r end
with savD (d : D) : list T := match d with DSome t => savT t | _ => [] end.

(** the tree is in memory *)
Fixpoint hT (h : nat -> option blk) (U : nat -> option undo) (t : T) : Prop :=
  match t with
  | TWord _ => True
  | TCopy b w => h b = Some (BTerm w)
  | TArr b l d =>
    (exists els, h b = Some (BArr els) /\ length els = lenL l + sent d) /\
    hL h U b 0 l /\ hD h U b (lenL l) d
  end
with hL (h : nat -> option blk) (U : nat -> option undo) (b i : nat) (l : Ls) : Prop :=
  match l with
  | LNil => True
  | LCons t hs r =>
    cell h (b, i) = Some (Elt (cof t) (hdu hs)) /\ hT h U t /\ hH h U (b, i) None hs /\ hL h U b (S i) r
  end
with hH (h : nat -> option blk) (U : nat -> option undo) (L : loc) (p : option nat) (hs : Hs) : Prop :=
  match hs with
  | HNil => True
  | HCons u t r => U u = Some (Undo (Some L) (cof t) (hdu r) p) /\ hT h U t /\ hH h U L (Some u) r
  end
with hD (h : nat -> option blk) (U : nat -> option undo) (b i : nat) (d : D) : Prop :=
  match d with
  | DNone => True
  | DEnd => cell h (b, i) = Some (Elt CEnd None)
  | DSome t => cell h (b, i) = Some (Elt (cof t) None) /\ hT h U t
  end.

(** the order of the records: those in a value are between those which made and saved it *)
Definition loH (lo : nat) (h : Hs) : nat := match h with HNil => lo | HCons u _ _ => u end.
Fixpoint ordT (lo hi : nat) (t : T) : Prop :=
  match t with TArr _ l d => ordL lo hi l /\ ordD lo hi d | _ => True end
with ordL (lo hi : nat) (l : Ls) : Prop :=
  match l with
  | LNil => True
  | LCons t h r => ordT (loH lo h) hi t /\ ordH lo hi h /\ ordL lo hi r
  end
with ordH (lo hi : nat) (h : Hs) : Prop :=
  match h with
  | HNil => True
  | HCons u t r => lo < u /\ u < hi /\ ordT (loH lo r) u t /\ ordH lo u r
  end
with ordD (lo hi : nat) (d : D) : Prop := match d with DSome t => uidsT t = [] /\ ordT lo hi t | DEnd => True | DNone => False end.
(** the block of a variable has no mark at its end *)
Definition topT (lo hi : nat) (t : T) : Prop :=
  match t with TArr _ l DNone => ordL lo hi l | _ => ordT lo hi t end.

(** the value *)
Fixpoint valT (t : T) : av :=
  match t with TWord w => AWord w | TCopy _ w => AWord w | TArr _ l d => AArr (valL l) (valD d) end
with valL (l : Ls) : list av := match l with LNil => [] | LCons t _ r => valT t :: valL r end
with valD (d : D) : option av := match d with DSome t => Some (valT t) | _ => None end.

Fixpoint depT (t : T) : nat :=
  match t with TArr _ l d => S (Nat.max (depL l) (depD d)) | _ => 0 end
with depL (l : Ls) : nat := match l with LNil => 0 | LCons t _ r => Nat.max (depT t) (depL r) end
with depD (d : D) : nat := match d with DSome t => depT t | _ => 0 end.

(** paths *)
Fixpoint nthL (l : Ls) (i : nat) : option (T * Hs) :=
  match l, i with
  | LNil, _ => None
  | LCons t h _, O => Some (t, h)
  | LCons _ _ r, S i => nthL r i
  end.
Fixpoint updL (l : Ls) (i : nat) (t : T) (h : Hs) : Ls :=
  match l, i with
  | LNil, _ => LNil
  | LCons _ _ r, O => LCons t h r
  | LCons t' h' r, S i => LCons t' h' (updL r i t h)
  end.
Fixpoint getP (p : list nat) (t : T) : option (loc * T * Hs) :=
  match p, t with
  | i :: p, TArr b l _ =>
    match nthL l i with
    | Some (t, h) => match p with [] => Some ((b, i), t, h) | _ => getP p t end
    | None => None
    end
  | _, _ => None
  end.
Fixpoint setP (p : list nat) (t' : T) (h' : Hs) (t : T) : T :=
  match p, t with
  | i :: p, TArr b l d =>
    match nthL l i with
    | Some (t, h) => TArr b (match p with [] => updL l i t' h' | _ => updL l i (setP p t' h' t) h end) d
    | None => TArr b l d
    end
  | _, _ => t
  end.

(** * Counting *)
Definition cnt (x : nat) (l : list nat) : nat := count_occ Nat.eq_dec l x.
Lemma cnt_app : forall x l r, cnt x (l ++ r) = cnt x l + cnt x r.
Proof. intros. apply count_occ_app. Qed.
Lemma cnt_nil : forall x, cnt x [] = 0.
Proof. reflexivity. Qed.
Definition one (x y : nat) : nat := if x =? y then 1 else 0.
Lemma cnt_cons : forall x y l, cnt x (y :: l) = one x y + cnt x l.
Proof. intros. unfold cnt, one. cbn. destruct (Nat.eq_dec y x), (Nat.eqb_spec x y); try congruence; reflexivity. Qed.
Lemma one_same : forall x, one x x = 1.
Proof. intros. unfold one. rewrite Nat.eqb_refl. reflexivity. Qed.
Lemma one_other : forall x y, x <> y -> one x y = 0.
Proof. intros. unfold one. destruct (Nat.eqb_spec x y); congruence. Qed.
Lemma cnt_in : forall x l, In x l <-> 0 < cnt x l.
Proof. intros. apply count_occ_In. Qed.
Lemma cnt_notin : forall x l, ~ In x l <-> cnt x l = 0.
Proof. intros. unfold cnt. apply count_occ_not_In. Qed.
Lemma cnt_len : forall l n, (forall x, cnt x l <= 1) -> (forall x, In x l -> x < n) -> length l <= n.
Proof.
  intros l n ND B. rewrite <- (seq_length n 0). apply NoDup_incl_length; [apply (NoDup_count_occ Nat.eq_dec); exact ND|].
  intros x Hx. apply in_seq. specialize (B x Hx). lia.
Qed.
Ltac cnts := repeat rewrite ?cnt_app, ?cnt_nil in *.

Lemma hold_C :
  (forall t x, cnt x (idsT t) = cnt x (idsC t) + cnt x (flat_map idsT (savT t))) /\
  (forall l x, cnt x (idsL l) = cnt x (idsCL l) + cnt x (flat_map idsT (savL l))) /\
  (forall h x, cnt x (idsH h) = cnt x (flat_map idsT (savH h))) /\
  (forall d x, cnt x (idsD d) = cnt x (idsCD d) + cnt x (flat_map idsT (savD d))).
Proof.
  apply tree_ind; intros; cbn [idsT idsL idsH idsD idsC idsCL idsCD savT savL savH savD flat_map];
    rewrite ?flat_map_app; cnts; try lia.
  - rewrite !(cnt_cons x b). cnts. rewrite H, H0. lia.
  - rewrite H, H0, H1. lia.
  - rewrite H0. lia.
  - apply H.
Qed.
Lemma hold_uC :
  (forall t x, cnt x (uidsT t) = cnt x (uidsC t) + cnt x (flat_map uidsT (savT t))) /\
  (forall l x, cnt x (uidsL l) = cnt x (uidsCL l) + cnt x (flat_map uidsT (savL l))) /\
  (forall h x, cnt x (uidsH h) = cnt x (uH h) + cnt x (flat_map uidsT (savH h))) /\
  (forall d x, cnt x (uidsD d) = cnt x (uidsCD d) + cnt x (flat_map uidsT (savD d))).
Proof.
  apply tree_ind; intros; cbn [uidsT uidsL uidsH uidsD uidsC uidsCL uidsCD uH savT savL savH savD flat_map];
    rewrite ?flat_map_app; cnts; try lia.
  - rewrite H, H0. lia.
  - rewrite H, H0, H1. lia.
  - rewrite (cnt_cons x u (uidsT t ++ uidsH r)), (cnt_cons x u (uH r)). cnts. rewrite H0. lia.
  - apply H.
Qed.
Lemma dep_len :
  (forall t, depT t <= length (idsC t)) /\ (forall l, depL l <= length (idsCL l)) /\
  (forall h : Hs, True) /\ (forall d, depD d <= length (idsCD d)).
Proof.
  apply tree_ind; intros; cbn [depT depL depD idsC idsCL idsCD]; cbn [length]; rewrite ?app_length; try lia.
Qed.
Lemma dep_nb : forall t n, (forall x, cnt x (idsT t) <= 1) -> (forall x, In x (idsT t) -> x < n) -> depT t <= n.
Proof.
  intros t n ND B. pose proof (proj1 dep_len t). assert (length (idsC t) <= n); [|lia].
  apply cnt_len.
  - intros x. specialize (ND x). rewrite (proj1 hold_C) in ND. lia.
  - intros x Hx. apply B. apply cnt_in. apply cnt_in in Hx. rewrite (proj1 hold_C). lia.
Qed.

(** * Cells *)
Definition updcell (h h' : nat -> option blk) (L : loc) (e : elt) : Prop :=
  exists els els', h (fst L) = Some (BArr els) /\ h' (fst L) = Some (BArr els') /\ length els' = length els /\
    snd L < length els /\
    forall j, nth_error els' j = if j =? snd L then Some e else nth_error els j.
Lemma set_nth_length : forall {A} (l : list A) i x, length (set_nth l i x) = length l.
Proof. induction l as [|y l IH]; intros [|i] x; cbn; auto. Qed.
Lemma set_nth_nth : forall {A} (l : list A) i x j, i < length l ->
  nth_error (set_nth l i x) j = if j =? i then Some x else nth_error l j.
Proof.
  induction l as [|y l IH]; intros [|i] x [|j] L; cbn in *; try lia; try reflexivity.
  rewrite IH by lia. reflexivity.
Qed.
Lemma cell_some : forall h L e, cell h L = Some e -> exists els, h (fst L) = Some (BArr els) /\ nth_error els (snd L) = Some e /\ snd L < length els.
Proof.
  intros h L e E. unfold cell in E. destruct (h (fst L)) as [[w|els]|]; try discriminate E. exists els. split; [reflexivity|].
  split; [exact E|]. apply nth_error_Some. rewrite E. discriminate.
Qed.
Lemma updcell_cell : forall h h' L e, updcell h h' L e -> cell h' L = Some e.
Proof. intros h h' L e (els & els' & E & E' & LE & LT & N). unfold cell. rewrite E', N, Nat.eqb_refl. reflexivity. Qed.
Lemma updcell_other : forall h h' L e i, updcell h h' L e -> i <> snd L -> cell h' (fst L, i) = cell h (fst L, i).
Proof.
  intros h h' L e i (els & els' & E & E' & LE & LT & N) NE. unfold cell. cbn [fst snd]. rewrite E, E', N.
  destruct (Nat.eqb_spec i (snd L)); [contradiction|reflexivity].
Qed.
Lemma updcell_trans : forall h h1 h2 L e1 e2, updcell h h1 L e1 -> updcell h1 h2 L e2 -> updcell h h2 L e2.
Proof.
  intros h h1 h2 L e1 e2 (a & b & E1 & E2 & LE & LT & N) (c & d & F1 & F2 & LE2 & LT2 & N2). rewrite E2 in F1. injection F1 as <-.
  exists a, d. split; [exact E1|]. split; [exact F2|]. split; [lia|]. split; [exact LT|]. intros j. rewrite N2. destruct (j =? snd L) eqn:Q; [reflexivity|].
  rewrite N, Q. reflexivity.
Qed.
Lemma updcell_eq : forall h h' k k' L e, updcell h h' L e -> k (fst L) = h (fst L) -> k' (fst L) = h' (fst L) -> updcell k k' L e.
Proof. intros h h' k k' L e (a & b & E1 & E2 & R) Q1 Q2. exists a, b. rewrite Q1, Q2. auto. Qed.

Lemma upd_same : forall {A} (f : nat -> A) k x, upd f k x k = x.
Proof. intros. unfold upd. rewrite Nat.eqb_refl. reflexivity. Qed.
Lemma upd_other : forall {A} (f : nat -> A) k x n, n <> k -> upd f k x n = f n.
Proof. intros. unfold upd. destruct (Nat.eqb_spec n k); [contradiction|reflexivity]. Qed.

Lemma wr_ok : forall L e s e0, cell (hp s) L = Some e0 ->
  exists h', wr L e s = Ret (set_hp s h') /\ updcell (hp s) h' L e /\ forall b, b <> fst L -> h' b = hp s b.
Proof.
  intros L e s e0 E. apply cell_some in E. destruct E as (els & E & N & LT). unfold wr. rewrite E.
  destruct (Nat.ltb_spec (snd L) (length els)); [|lia]. eexists. split; [reflexivity|]. split.
  - exists els, (set_nth els (snd L) e). split; [exact E|]. split; [apply upd_same|]. split; [apply set_nth_length|]. split; [exact LT|].
    intros j. apply set_nth_nth. exact LT.
  - intros b NB. apply upd_other. exact NB.
Qed.
Lemma rd_ok : forall L s e, cell (hp s) L = Some e -> e_c e <> CJunk -> rd L s = Ret e.
Proof. intros L s e E N. unfold rd. rewrite E. destruct (e_c e); try reflexivity. contradiction. Qed.
Lemma cof_junk : forall t, cof t <> CJunk.
Proof. destruct t; discriminate. Qed.
Lemma cof_end : forall t, cof t <> CEnd.
Proof. destruct t; discriminate. Qed.

(** * Frames *)
Lemma frame :
  (forall t h U h' U', (forall b, In b (idsT t) -> h' b = h b) -> (forall u, In u (uidsT t) -> U' u = U u) ->
     hT h U t -> hT h' U' t) /\
  (forall l h U h' U' b i, (forall b, In b (idsL l) -> h' b = h b) -> (forall u, In u (uidsL l) -> U' u = U u) ->
     (forall j, i <= j < i + lenL l -> cell h' (b, j) = cell h (b, j)) ->
     hL h U b i l -> hL h' U' b i l) /\
  (forall hs h U h' U' L p, (forall b, In b (idsH hs) -> h' b = h b) -> (forall u, In u (uidsH hs) -> U' u = U u) ->
     hH h U L p hs -> hH h' U' L p hs) /\
  (forall d h U h' U' b i, (forall b, In b (idsD d) -> h' b = h b) -> (forall u, In u (uidsD d) -> U' u = U u) ->
     cell h' (b, i) = cell h (b, i) -> hD h U b i d -> hD h' U' b i d).
Proof.
  apply tree_ind; cbn [idsT idsL idsH idsD uidsT uidsL uidsH uidsD hT hL hH hD lenL].
  - trivial.
  - intros b w h U h' U' HB HU E. rewrite HB; [exact E|left; reflexivity].
  - intros b l IHl d IHd h U h' U' HB HU ((els & E & LE) & HL & HD).
    assert (EB : h' b = h b) by (apply HB; left; reflexivity).
    split; [exists els; rewrite EB; auto|]. split.
    + apply (IHl h U); [intros x Hx; apply HB; right; apply in_or_app; auto|intros x Hx; apply HU; apply in_or_app; auto| |exact HL].
      intros j _. unfold cell. cbn [fst]. rewrite EB. reflexivity.
    + apply (IHd h U); [intros x Hx; apply HB; right; apply in_or_app; auto|intros x Hx; apply HU; apply in_or_app; auto| |exact HD].
      unfold cell. cbn [fst]. rewrite EB. reflexivity.
  - trivial.
  - intros t IHt hs IHh r IHr h U h' U' b i HB HU HC (E & Ht & Hh & Hr). split; [rewrite HC by lia; exact E|].
    split; [apply (IHt h U); [intros x Hx; apply HB|intros x Hx; apply HU|exact Ht]; apply in_or_app; left; exact Hx|].
    split; [apply (IHh h U); [intros x Hx; apply HB|intros x Hx; apply HU|exact Hh]; apply in_or_app; right; apply in_or_app; left; exact Hx|].
    apply (IHr h U); [intros x Hx; apply HB|intros x Hx; apply HU|intros j Lj; apply HC; lia|exact Hr]; apply in_or_app; right; apply in_or_app; right; exact Hx.
  - trivial.
  - intros u t IHt r IHr h U h' U' L p HB HU (E & Ht & Hr). split; [rewrite HU by (left; reflexivity); exact E|].
    split; [apply (IHt h U); [intros x Hx; apply HB|intros x Hx; apply HU; right|exact Ht]; apply in_or_app; left; exact Hx|].
    apply (IHr h U); [intros x Hx; apply HB|intros x Hx; apply HU; right|exact Hr]; apply in_or_app; right; exact Hx.
  - trivial.
  - intros h U h' U' b i HB HU HC E. rewrite HC. exact E.
  - intros t IHt h U h' U' b i HB HU HC (E & Ht). split; [rewrite HC; exact E|]. apply (IHt h U); assumption.
Qed.
Definition frameT := proj1 frame.
Definition frameL := proj1 (proj2 frame).
Definition frameH := proj1 (proj2 (proj2 frame)).
Definition frameD := proj2 (proj2 (proj2 frame)).

(** * Paths *)
Lemma lenL_updL : forall l i t h, lenL (updL l i t h) = lenL l.
Proof. induction l as [|t0 h0 r IH]; intros [|i] t h; cbn; auto. Qed.
Lemma nthL_lt : forall l i x, nthL l i = Some x -> i < lenL l.
Proof. induction l as [|t0 h0 r IH]; intros [|i] x E; cbn in *; try discriminate E; [lia|]. apply IH in E. lia. Qed.
Lemma nthL_some : forall l i, i < lenL l -> exists t h, nthL l i = Some (t, h).
Proof. induction l as [|t0 h0 r IH]; intros [|i] L; cbn in *; try lia; [eauto|]. apply IH. lia. Qed.
Lemma cof_setP : forall p t' h' t, cof (setP p t' h' t) = cof t.
Proof.
  intros [|i p] t' h' [w|b w|b l d]; try reflexivity. cbn [setP]. destruct (nthL l i) as [[t h]|]; [|reflexivity].
  cbn [cof]. destruct p; rewrite lenL_updL; reflexivity.
Qed.
Lemma cnt_updL : forall l i t h t' h' x, nthL l i = Some (t, h) ->
  cnt x (idsL (updL l i t' h')) + cnt x (idsT t) + cnt x (idsH h) = cnt x (idsL l) + cnt x (idsT t') + cnt x (idsH h').
Proof.
  induction l as [|t0 h0 r IH]; intros [|i] t h t' h' x E; cbn in E; try discriminate E; cbn [updL idsL]; cnts.
  - injection E as -> ->. lia.
  - specialize (IH i t h t' h' x E). lia.
Qed.
Lemma ucnt_updL : forall l i t h t' h' x, nthL l i = Some (t, h) ->
  cnt x (uidsL (updL l i t' h')) + cnt x (uidsT t) + cnt x (uidsH h) = cnt x (uidsL l) + cnt x (uidsT t') + cnt x (uidsH h').
Proof.
  induction l as [|t0 h0 r IH]; intros [|i] t h t' h' x E; cbn in E; try discriminate E; cbn [updL uidsL]; cnts.
  - injection E as -> ->. lia.
  - specialize (IH i t h t' h' x E). lia.
Qed.
Lemma cnt_setP : forall p t L c h t' h' x, getP p t = Some (L, c, h) ->
  cnt x (idsT (setP p t' h' t)) + cnt x (idsT c) + cnt x (idsH h) = cnt x (idsT t) + cnt x (idsT t') + cnt x (idsH h').
Proof.
  induction p as [|i p IH]; intros [w|b w|b l d] L c h t' h' x E; try discriminate E. cbn [getP setP] in *.
  destruct (nthL l i) as [[t0 h0]|] eqn:EN; [|discriminate E]. cbn [idsT]. rewrite !(cnt_cons x b). cnts. destruct p as [|j p].
  - injection E as <- <- <-. pose proof (cnt_updL l i t0 h0 t' h' x EN). lia.
  - specialize (IH t0 L c h t' h' x E). pose proof (cnt_updL l i t0 h0 (setP (j :: p) t' h' t0) h0 x EN). lia.
Qed.
Lemma ucnt_setP : forall p t L c h t' h' x, getP p t = Some (L, c, h) ->
  cnt x (uidsT (setP p t' h' t)) + cnt x (uidsT c) + cnt x (uidsH h) = cnt x (uidsT t) + cnt x (uidsT t') + cnt x (uidsH h').
Proof.
  induction p as [|i p IH]; intros [w|b w|b l d] L c h t' h' x E; try discriminate E. cbn [getP setP] in *.
  destruct (nthL l i) as [[t0 h0]|] eqn:EN; [|discriminate E]. cbn [uidsT]. cnts. destruct p as [|j p].
  - injection E as <- <- <-. pose proof (ucnt_updL l i t0 h0 t' h' x EN). lia.
  - specialize (IH t0 L c h t' h' x E). pose proof (ucnt_updL l i t0 h0 (setP (j :: p) t' h' t0) h0 x EN). lia.
Qed.
Lemma cnt_nthL : forall l i t h x, nthL l i = Some (t, h) -> cnt x (idsT t) + cnt x (idsH h) <= cnt x (idsL l).
Proof.
  induction l as [|t0 h0 r IH]; intros [|i] t h x E; cbn in E; try discriminate E; cbn [idsL]; cnts.
  - injection E as -> ->. lia.
  - specialize (IH i t h x E). lia.
Qed.
Lemma ucnt_nthL : forall l i t h x, nthL l i = Some (t, h) -> cnt x (uidsT t) + cnt x (uidsH h) <= cnt x (uidsL l).
Proof.
  induction l as [|t0 h0 r IH]; intros [|i] t h x E; cbn in E; try discriminate E; cbn [uidsL]; cnts.
  - injection E as -> ->. lia.
  - specialize (IH i t h x E). lia.
Qed.
(** the block of the element is not in its value *)
Lemma cnt_getP : forall p t L c h x, getP p t = Some (L, c, h) ->
  one x (fst L) + cnt x (idsT c) + cnt x (idsH h) <= cnt x (idsT t).
Proof.
  induction p as [|i p IH]; intros [w|b w|b l d] L c h x E; try discriminate E. cbn [getP] in *.
  destruct (nthL l i) as [[t0 h0]|] eqn:EN; [|discriminate E]. cbn [idsT]. rewrite !(cnt_cons x b). cnts.
  pose proof (cnt_nthL l i t0 h0 x EN). destruct p as [|j p].
  - injection E as <- <- <-. cbn [fst]. lia.
  - specialize (IH t0 L c h x E). lia.
Qed.
Lemma ucnt_getP : forall p t L c h x, getP p t = Some (L, c, h) -> cnt x (uidsT c) + cnt x (uidsH h) <= cnt x (uidsT t).
Proof.
  induction p as [|i p IH]; intros [w|b w|b l d] L c h x E; try discriminate E. cbn [getP] in *.
  destruct (nthL l i) as [[t0 h0]|] eqn:EN; [|discriminate E]. cbn [uidsT]. cnts.
  pose proof (ucnt_nthL l i t0 h0 x EN). destruct p as [|j p].
  - injection E as <- <- <-. lia.
  - specialize (IH t0 L c h x E). lia.
Qed.

Lemma nthL_hL : forall l h U b k i t hs, hL h U b k l -> nthL l i = Some (t, hs) ->
  cell h (b, k + i) = Some (Elt (cof t) (hdu hs)) /\ hT h U t /\ hH h U (b, k + i) None hs.
Proof.
  induction l as [|t0 h0 r IH]; intros h U b k [|i] t hs HL E; cbn in E; try discriminate E; destruct HL as (C & Ht & Hh & Hr).
  - injection E as -> ->. rewrite Nat.add_0_r. auto.
  - specialize (IH h U b (S k) i t hs Hr E). replace (k + S i) with (S k + i) by lia. exact IH.
Qed.
Lemma getP_hT : forall p t h U L c hs, hT h U t -> getP p t = Some (L, c, hs) ->
  cell h L = Some (Elt (cof c) (hdu hs)) /\ hT h U c /\ hH h U L None hs.
Proof.
  induction p as [|i p IH]; intros [w|b w|b l d] h U L c hs Ht E; try discriminate E. cbn [getP] in *.
  destruct Ht as (_ & HL & _). destruct (nthL l i) as [[t0 h0]|] eqn:EN; [|discriminate E].
  destruct (nthL_hL l h U b 0 i t0 h0 HL EN) as (C & Ht & Hh). destruct p as [|j p].
  - injection E as <- <- <-. auto.
  - apply (IH t0); assumption.
Qed.

Lemma updL_hL : forall l h U h' U' b k i t hs t' hs',
  hL h U b k l -> nthL l i = Some (t, hs) -> (forall x, cnt x (idsL l) <= 1) -> (forall x, cnt x (uidsL l) <= 1) ->
  (forall j, j <> k + i -> cell h' (b, j) = cell h (b, j)) ->
  (forall x, In x (idsL l) -> ~ In x (idsT t) -> ~ In x (idsH hs) -> h' x = h x) ->
  (forall x, In x (uidsL l) -> ~ In x (uidsT t) -> ~ In x (uidsH hs) -> U' x = U x) ->
  cell h' (b, k + i) = Some (Elt (cof t') (hdu hs')) -> hT h' U' t' -> hH h' U' (b, k + i) None hs' ->
  hL h' U' b k (updL l i t' hs').
Proof.
  induction l as [|t0 h0 r IH]; intros h U h' U' b k [|i] t hs t' hs' HL E ND UD HC HB HU C' Ht' Hh'; cbn in E; try discriminate E;
    destruct HL as (C & Ht & Hh & Hr); cbn [updL hL]; cbn [idsL uidsL] in *.
  - injection E as -> ->. rewrite Nat.add_0_r in *. split; [exact C'|]. split; [exact Ht'|]. split; [exact Hh'|].
    apply (frameL r h U); [| |intros j Lj; apply HC; lia|exact Hr].
    + intros x Hx. specialize (ND x). cnts. apply cnt_in in Hx. apply HB; [apply cnt_in; cnts; lia|apply cnt_notin; lia|apply cnt_notin; lia].
    + intros x Hx. specialize (UD x). cnts. apply cnt_in in Hx. apply HU; [apply cnt_in; cnts; lia|apply cnt_notin; lia|apply cnt_notin; lia].
  - assert (NI := fun x => cnt_nthL r i t hs x E). assert (NU := fun x => ucnt_nthL r i t hs x E).
    split; [rewrite HC by lia; exact C|]. split.
    { apply (frameT t0 h U); [| |exact Ht].
      - intros x Hx. specialize (ND x). specialize (NI x). cnts. apply cnt_in in Hx. apply HB; [apply cnt_in; cnts; lia|apply cnt_notin; lia|apply cnt_notin; lia].
      - intros x Hx. specialize (UD x). specialize (NU x). cnts. apply cnt_in in Hx. apply HU; [apply cnt_in; cnts; lia|apply cnt_notin; lia|apply cnt_notin; lia]. }
    split.
    { apply (frameH h0 h U); [| |exact Hh].
      - intros x Hx. specialize (ND x). specialize (NI x). cnts. apply cnt_in in Hx. apply HB; [apply cnt_in; cnts; lia|apply cnt_notin; lia|apply cnt_notin; lia].
      - intros x Hx. specialize (UD x). specialize (NU x). cnts. apply cnt_in in Hx. apply HU; [apply cnt_in; cnts; lia|apply cnt_notin; lia|apply cnt_notin; lia]. }
    replace (k + S i) with (S k + i) in * by lia.
    apply (IH h U h' U' b (S k) i t hs); try assumption.
    + intros x. specialize (ND x). cnts. lia.
    + intros x. specialize (UD x). cnts. lia.
    + intros x Hx. apply HB. apply cnt_in. apply cnt_in in Hx. cnts. lia.
    + intros x Hx. apply HU. apply cnt_in. apply cnt_in in Hx. cnts. lia.
Qed.

Lemma setP_hT : forall p t L c hs h U h' U' c' hs',
  hT h U t -> getP p t = Some (L, c, hs) -> (forall x, cnt x (idsT t) <= 1) -> (forall x, cnt x (uidsT t) <= 1) ->
  (forall b, In b (idsT t) -> b <> fst L -> ~ In b (idsT c) -> ~ In b (idsH hs) -> h' b = h b) ->
  updcell h h' L (Elt (cof c') (hdu hs')) ->
  (forall u, In u (uidsT t) -> ~ In u (uidsT c) -> ~ In u (uidsH hs) -> U' u = U u) ->
  hT h' U' c' -> hH h' U' L None hs' ->
  hT h' U' (setP p c' hs' t).
Proof.
  induction p as [|i p IH]; intros [w|b w|b l d] L c hs h U h' U' c' hs' Ht E ND UD HB UC HU Hc' Hh'; try discriminate E.
  cbn [getP setP] in *. destruct (nthL l i) as [[t0 h0]|] eqn:EN; [|discriminate E].
  destruct Ht as ((els & EB & LE) & HL & HD).
  destruct (nthL_hL l h U b 0 i t0 h0 HL EN) as (C0 & Ht0 & Hh0).
  cbn [idsT uidsT] in *.
  assert (NI := fun x => cnt_nthL l i t0 h0 x EN). assert (NU := fun x => ucnt_nthL l i t0 h0 x EN).
  assert (NB := ND b). rewrite (cnt_cons b b), one_same in NB. cnts.
  destruct p as [|j p].
  - injection E as <- <- <-. cbn [fst snd] in *. destruct UC as (a1 & a2 & E1 & E2 & LE2 & LT & N). cbn [fst snd] in *. rewrite EB in E1. injection E1 as <-.
    cbn [hT]. split; [exists a2; split; [exact E2|]; rewrite lenL_updL; lia|].
    assert (CC : forall j, j <> i -> cell h' (b, j) = cell h (b, j)).
    { intros j NE. unfold cell. cbn [fst snd]. rewrite EB, E2, N. destruct (Nat.eqb_spec j i); [contradiction|reflexivity]. }
    split.
    + apply (updL_hL l h U h' U' b 0 i t0 h0); try assumption.
      * intros x. specialize (ND x). rewrite cnt_cons in ND. cnts. lia.
      * intros x. specialize (UD x). cnts. lia.
      * intros x Hx N1 N2. apply HB; [right; apply in_or_app; left; exact Hx| |exact N1|exact N2].
        intros ->. apply cnt_in in Hx. lia.
      * intros x Hx N1 N2. apply HU; [apply in_or_app; left; exact Hx|exact N1|exact N2].
      * cbn [Nat.add]. unfold cell. cbn [fst snd]. rewrite E2, N, Nat.eqb_refl. reflexivity.
    + rewrite lenL_updL. apply (frameD d h U); [| |apply CC; apply nthL_lt in EN; lia|exact HD].
      * intros x Hx. apply cnt_in in Hx. specialize (ND x). rewrite cnt_cons in ND. specialize (NI x). cnts.
        apply HB; [right; apply cnt_in; cnts; lia|intros ->; lia|apply cnt_notin; lia|apply cnt_notin; lia].
      * intros x Hx. apply cnt_in in Hx. specialize (UD x). specialize (NU x). cnts.
        apply HU; [apply cnt_in; cnts; lia|apply cnt_notin; lia|apply cnt_notin; lia].
  - assert (G := fun x => cnt_getP (j :: p) t0 L c hs x E). assert (GU := fun x => ucnt_getP (j :: p) t0 L c hs x E).
    assert (NL : b <> fst L).
    { intros ->. specialize (G (fst L)). rewrite one_same in G. specialize (NI (fst L)). lia. }
    assert (EB' : h' b = h b).
    { apply HB; [left; reflexivity|exact NL|apply cnt_notin|apply cnt_notin]; specialize (G b); specialize (NI b); lia. }
    assert (CC : forall j, cell h' (b, j) = cell h (b, j)) by (intros j0; unfold cell; cbn [fst]; rewrite EB'; reflexivity).
    cbn [hT]. split; [exists els; rewrite EB', lenL_updL; auto|]. rewrite lenL_updL. split.
    + apply (updL_hL l h U h' U' b 0 i t0 h0); try assumption.
      * intros x. specialize (ND x). rewrite cnt_cons in ND. cnts. lia.
      * intros x. specialize (UD x). cnts. lia.
      * intros j0 _. apply CC.
      * intros x Hx N1 N2. apply HB; [right; apply in_or_app; left; exact Hx| | |].
        -- intros ->. apply cnt_notin in N1. specialize (G (fst L)). rewrite one_same in G. lia.
        -- apply cnt_notin. apply cnt_notin in N1. specialize (G x). lia.
        -- apply cnt_notin. apply cnt_notin in N1. specialize (G x). lia.
      * intros x Hx N1 N2. apply HU; [apply in_or_app; left; exact Hx|apply cnt_notin|apply cnt_notin]; apply cnt_notin in N1; specialize (GU x); lia.
      * cbn [Nat.add]. rewrite CC, cof_setP. exact C0.
      * apply (IH t0 L c hs h U); try assumption.
        -- intros x. specialize (ND x). rewrite cnt_cons in ND. specialize (NI x). cnts. lia.
        -- intros x. specialize (UD x). specialize (NU x). cnts. lia.
        -- intros x Hx. apply HB. right. apply cnt_in. apply cnt_in in Hx. specialize (NI x). cnts. lia.
        -- intros x Hx. apply HU. apply cnt_in. apply cnt_in in Hx. specialize (NU x). cnts. lia.
      * cbn [Nat.add]. apply (frameH h0 h U); [| |exact Hh0].
        -- intros x Hx. apply cnt_in in Hx. specialize (ND x). rewrite cnt_cons in ND. specialize (NI x). specialize (G x). cnts.
           apply HB; [right; apply cnt_in; cnts; lia| |apply cnt_notin; lia|apply cnt_notin; lia].
           intros ->. rewrite one_same in G. lia.
        -- intros x Hx. apply cnt_in in Hx. specialize (UD x). specialize (NU x). specialize (GU x). cnts.
           apply HU; [apply cnt_in; cnts; lia|apply cnt_notin; lia|apply cnt_notin; lia].
    + apply (frameD d h U); [| |apply CC|exact HD].
      * intros x Hx. apply cnt_in in Hx. specialize (ND x). rewrite cnt_cons in ND. specialize (NI x). specialize (G x). cnts.
        apply HB; [right; apply cnt_in; cnts; lia| |apply cnt_notin; lia|apply cnt_notin; lia].
        intros ->. rewrite one_same in G. lia.
      * intros x Hx. apply cnt_in in Hx. specialize (UD x). specialize (NU x). specialize (GU x). cnts.
        apply HU; [apply cnt_in; cnts; lia|apply cnt_notin; lia|apply cnt_notin; lia].
Qed.

(** * Order *)
Lemma ord_hi :
  (forall t lo hi hi', hi <= hi' -> ordT lo hi t -> ordT lo hi' t) /\
  (forall l lo hi hi', hi <= hi' -> ordL lo hi l -> ordL lo hi' l) /\
  (forall h lo hi hi', hi <= hi' -> ordH lo hi h -> ordH lo hi' h) /\
  (forall d lo hi hi', hi <= hi' -> ordD lo hi d -> ordD lo hi' d).
Proof.
  apply tree_ind; cbn [ordT ordL ordH ordD]; intros; try exact I.
  - destruct H2. split; [apply (H lo hi)|apply (H0 lo hi)]; assumption.
  - destruct H3 as (A & B & C). split; [apply (H _ hi); assumption|]. split; [apply (H0 _ hi)|apply (H1 _ hi)]; assumption.
  - destruct H2 as (A & B & C & E). split; [exact A|]. split; [lia|]. split; assumption.
  - assumption.
  - destruct H1. split; [assumption|apply (H lo hi); assumption].
Qed.
Lemma ord_lo :
  (forall t lo lo' hi, lo <= lo' -> ordT lo' hi t -> ordT lo hi t) /\
  (forall l lo lo' hi, lo <= lo' -> ordL lo' hi l -> ordL lo hi l) /\
  (forall h lo lo' hi, lo <= lo' -> ordH lo' hi h -> ordH lo hi h) /\
  (forall d lo lo' hi, lo <= lo' -> ordD lo' hi d -> ordD lo hi d).
Proof.
  apply tree_ind; cbn [ordT ordL ordH ordD]; intros; try exact I.
  - destruct H2. split; [apply (H lo lo')|apply (H0 lo lo')]; assumption.
  - destruct H3 as (A & B & C). split; [|split; [apply (H0 lo lo'); assumption|apply (H1 lo lo'); assumption]].
    destruct h; cbn [loH] in *; [apply (H lo lo'); assumption|exact A].
  - destruct H2 as (A & B & C & E). split; [lia|]. split; [exact B|]. split; [|apply (H0 lo lo'); assumption].
    destruct r; cbn [loH] in *; [apply (H lo lo'); assumption|exact C].
  - assumption.
  - destruct H1. split; [assumption|apply (H lo lo'); assumption].
Qed.
Lemma loH_le : forall lo hi h, ordH lo hi h -> lo <= loH lo h.
Proof. intros lo hi [|u t r] O; cbn [loH ordH] in *; [lia|destruct O; lia]. Qed.
Lemma ord_bound :
  (forall t lo hi u, ordT lo hi t -> In u (uidsT t) -> lo < u < hi) /\
  (forall l lo hi u, ordL lo hi l -> In u (uidsL l) -> lo < u < hi) /\
  (forall h lo hi u, ordH lo hi h -> In u (uidsH h) -> lo < u < hi) /\
  (forall d lo hi u, ordD lo hi d -> In u (uidsD d) -> lo < u < hi).
Proof.
  apply tree_ind; cbn [ordT ordL ordH ordD uidsT uidsL uidsH uidsD]; intros.
  - destruct H0.
  - destruct H0.
  - destruct H1 as (A & B). apply in_app_or in H2. destruct H2 as [H2|H2]; [apply (H lo hi u A H2)|apply (H0 lo hi u B H2)].
  - destruct H0.
  - destruct H2 as (A & B & C). apply in_app_or in H3. destruct H3 as [H3|H3].
    + specialize (H _ _ _ A H3). destruct h; cbn [loH ordH] in *; [exact H|]. destruct B as (B1 & B2 & _). lia.
    + apply in_app_or in H3. destruct H3 as [H3|H3]; [apply (H0 lo hi u B H3)|apply (H1 lo hi u C H3)].
  - destruct H0.
  - destruct H1 as (A & B & C & E). destruct H2 as [<-|H2]; [lia|]. apply in_app_or in H2. destruct H2 as [H2|H2].
    + specialize (H _ _ _ C H2). destruct r; cbn [loH ordH] in *; [lia|]. destruct E as (E1 & E2 & _). lia.
    + specialize (H0 _ _ _ E H2). lia.
  - destruct H0.
  - destruct H0.
  - destruct H0 as (H0 & _). rewrite H0 in H1. destruct H1.
Qed.
Lemma updL_ord : forall l i t h t' h' lo hi hi', hi <= hi' -> ordL lo hi l -> nthL l i = Some (t, h) ->
  ordT (loH lo h') hi' t' -> ordH lo hi' h' -> ordL lo hi' (updL l i t' h').
Proof.
  induction l as [|t0 h0 r IH]; intros [|i] t h t' h' lo hi hi' LE O E Ot Oh; cbn in E; try discriminate E; destruct O as (A & B & C); cbn [updL ordL].
  - split; [exact Ot|]. split; [exact Oh|]. apply (proj1 (proj2 ord_hi) r lo hi); assumption.
  - split; [apply (proj1 ord_hi _ _ hi); assumption|]. split; [apply (proj1 (proj2 (proj2 ord_hi)) _ _ hi); assumption|].
    apply (IH i t h t' h' lo hi); assumption.
Qed.
Lemma nthL_ord : forall l i t h lo hi, ordL lo hi l -> nthL l i = Some (t, h) -> ordT (loH lo h) hi t /\ ordH lo hi h.
Proof.
  induction l as [|t0 h0 r IH]; intros [|i] t h lo hi O E; cbn in E; try discriminate E; destruct O as (A & B & C).
  - injection E as -> ->. auto.
  - apply (IH i); assumption.
Qed.
Lemma getP_ord : forall p t L c h lo hi, ordT lo hi t -> getP p t = Some (L, c, h) ->
  exists lo', lo <= lo' /\ (lo < hi -> lo' < hi) /\ ordT (loH lo' h) hi c /\ ordH lo' hi h /\
    forall c' h' hi', hi <= hi' -> ordT (loH lo' h') hi' c' -> ordH lo' hi' h' -> ordT lo hi' (setP p c' h' t).
Proof.
  induction p as [|i p IH]; intros [w|b w|b l d] L c h lo hi O E; try discriminate E. cbn [getP setP] in *.
  destruct O as (OL & OD). destruct (nthL l i) as [[t0 h0]|] eqn:EN; [|discriminate E].
  destruct (nthL_ord l i t0 h0 lo hi OL EN) as (O1 & O2). destruct p as [|j p].
  - injection E as <- <- <-. exists lo. split; [lia|]. split; [auto|]. split; [exact O1|]. split; [exact O2|].
    intros c' h' hi' LE A B. split; [apply (updL_ord l i t0 h0 c' h' lo hi); assumption|].
    apply (proj2 (proj2 (proj2 ord_hi)) _ _ hi); assumption.
  - destruct (IH t0 L c h (loH lo h0) hi O1 E) as (lo' & L1 & L2 & A & B & K). exists lo'.
    assert (lo <= loH lo h0) by (destruct h0; cbn [loH ordH] in *; [lia|destruct O2; lia]).
    assert (lo < hi -> loH lo h0 < hi) by (destruct h0; cbn [loH ordH] in *; [auto|destruct O2 as (_ & O2 & _); lia]).
    split; [lia|]. split; [auto|]. split; [exact A|]. split; [exact B|]. intros c' h' hi' LE A' B'. split.
    + apply (updL_ord l i t0 h0 _ h0 lo hi); try assumption; [apply K; assumption|].
      apply (proj1 (proj2 (proj2 ord_hi)) _ _ hi); assumption.
    + apply (proj2 (proj2 (proj2 ord_hi)) _ _ hi); assumption.
Qed.
(** the last record is the last one of an element, whose value has no records *)
Lemma newest :
  (forall t lo hi u, ordT lo hi t -> In u (uidsT t) -> (forall v, In v (uidsT t) -> v <= u) ->
     exists p L c t' r, getP p t = Some (L, c, HCons u t' r)) /\
  (forall l lo hi u, ordL lo hi l -> In u (uidsL l) -> (forall v, In v (uidsL l) -> v <= u) ->
     exists i t h, nthL l i = Some (t, h) /\
       ((exists t' r, h = HCons u t' r) \/ exists p L c t' r, getP p t = Some (L, c, HCons u t' r))) /\
  (forall h : Hs, True) /\ (forall d : D, True).
Proof.
  apply tree_ind; try exact (fun _ => I); try (intros; exact I); cbn [ordT ordL uidsT uidsL].
  - intros w lo hi u _ [].
  - intros b w lo hi u _ [].
  - intros b l IH d _ lo hi u (OL & OD) Hu M.
    assert (ED : uidsD d = []) by (destruct d; [reflexivity|reflexivity|apply OD]). rewrite ED, app_nil_r in *.
    destruct (IH lo hi u OL Hu M) as (i & t & h & EN & [(t' & r & ->)|(p & L & c & t' & r & E)]).
    + exists [i], (b, i), t, t', r. cbn [getP]. rewrite EN. reflexivity.
    + exists (i :: p), L, c, t', r. cbn [getP]. rewrite EN. destruct p; [discriminate E|exact E].
  - intros lo hi u _ [].
  - intros t IHt h _ r IHr lo hi u (Ot & Oh & Or) Hu M. apply in_app_or in Hu. destruct Hu as [Hu|Hu].
    + destruct (IHt _ _ u Ot Hu) as (p & K).
      { intros v Hv. apply M. apply in_or_app. left. exact Hv. }
      exists 0, t, h. split; [reflexivity|]. right. exists p. exact K.
    + apply in_app_or in Hu. destruct Hu as [Hu|Hu].
      * exists 0, t, h. split; [reflexivity|]. left. destruct h as [|v t' h']; [destruct Hu|]. exists t', h'. f_equal.
        destruct Hu as [Hu|Hu]; [exact Hu|]. exfalso.
        assert (v <= u) by (apply M; apply in_or_app; right; apply in_or_app; left; left; reflexivity).
        destruct Oh as (_ & _ & O1 & O2). apply in_app_or in Hu. destruct Hu as [Hu|Hu].
        -- pose proof (proj1 ord_bound _ _ _ _ O1 Hu). lia.
        -- pose proof (proj1 (proj2 (proj2 ord_bound)) _ _ _ _ O2 Hu). lia.
      * destruct (IHr lo hi u Or Hu) as (i & t1 & h1 & E & K).
        { intros v Hv. apply M. apply in_or_app. right. apply in_or_app. right. exact Hv. }
        exists (S i), t1, h1. split; [exact E|exact K].
Qed.
Definition shut (t : T) : T := match t with TArr b l DNone => TArr b l DEnd | _ => t end.
Lemma getP_shut : forall p t, getP p (shut t) = getP p t.
Proof. intros [|i p] [w|b w|b l [| |d]]; reflexivity. Qed.
Lemma setP_shut : forall p c h t, setP p c h (shut t) = shut (setP p c h t).
Proof.
  intros [|i p] c h [w|b w|b l [| |d]]; try reflexivity; cbn [setP shut]; destruct (nthL l i) as [[t0 h0]|]; destruct p; reflexivity.
Qed.
Lemma uids_shut : forall t, uidsT (shut t) = uidsT t.
Proof. intros [w|b w|b l [| |d]]; reflexivity. Qed.
Lemma topT_shut : forall lo hi t, topT lo hi t <-> ordT lo hi (shut t).
Proof. intros lo hi [w|b w|b l [| |d]]; cbn; tauto. Qed.
Lemma top_hi : forall t lo hi hi', hi <= hi' -> topT lo hi t -> topT lo hi' t.
Proof. intros t lo hi hi' LE O. apply topT_shut. apply topT_shut in O. apply (proj1 ord_hi _ _ hi); assumption. Qed.
Lemma top_bound : forall t lo hi u, topT lo hi t -> In u (uidsT t) -> lo < u < hi.
Proof. intros t lo hi u O Hu. apply topT_shut in O. rewrite <- uids_shut in Hu. apply (proj1 ord_bound _ _ _ _ O Hu). Qed.
Lemma getP_top : forall p t L c h lo hi, topT lo hi t -> getP p t = Some (L, c, h) ->
  exists lo', lo <= lo' /\ (lo < hi -> lo' < hi) /\ ordT (loH lo' h) hi c /\ ordH lo' hi h /\
    forall c' h' hi', hi <= hi' -> ordT (loH lo' h') hi' c' -> ordH lo' hi' h' -> topT lo hi' (setP p c' h' t).
Proof.
  intros p t L c h lo hi O E. apply topT_shut in O. rewrite <- getP_shut in E.
  destruct (getP_ord p _ L c h lo hi O E) as (lo' & A & A' & B & C & K). exists lo'. split; [exact A|]. split; [exact A'|]. split; [exact B|]. split; [exact C|].
  intros c' h' hi' LE Q1 Q2. apply topT_shut. rewrite <- setP_shut. apply K; assumption.
Qed.
Lemma newest_top : forall t lo hi u, topT lo hi t -> In u (uidsT t) -> (forall v, In v (uidsT t) -> v <= u) ->
  exists p L c t' r, getP p t = Some (L, c, HCons u t' r) /\ uidsT c = [].
Proof.
  intros t lo hi u O Hu M. pose proof O as O'. apply topT_shut in O. rewrite <- uids_shut in Hu.
  destruct (proj1 newest (shut t) lo hi u O Hu) as (p & L & c & t' & r & E); [rewrite uids_shut; exact M|].
  rewrite getP_shut in E. exists p, L, c, t', r. split; [exact E|].
  destruct (getP_top p t L c _ lo hi O' E) as (lo' & _ & _ & Oc & _).
  destruct (uidsT c) as [|v q] eqn:Q; [reflexivity|]. exfalso. cbn [loH] in Oc.
  assert (Iv : In v (uidsT c)) by (rewrite Q; left; reflexivity).
  pose proof (proj1 ord_bound _ _ _ _ Oc Iv). pose proof (ucnt_getP p t L c _ v E). assert (v <= u); [|lia].
  apply M. apply cnt_in. apply cnt_in in Iv. lia.
Qed.

(** * Freeing *)
Definition unvalid (r : undo) : undo := Undo None (u_save r) (u_next r) (u_prev r).
Record same (s s' : gst) : Prop := { sm_nb : nb s' = nb s; sm_info : info s' = info s; sm_tr : tr s' = tr s }.
Lemma same_refl : forall s, same s s.
Proof. constructor; reflexivity. Qed.
Lemma same_trans : forall a b c, same a b -> same b c -> same a c.
Proof. intros a b c [] []. constructor; congruence. Qed.

Lemma invalidate_ok : forall hs h U L p fuel s, hH h U L p hs -> (forall x, cnt x (uH hs) <= 1) ->
  (forall x, In x (uH hs) -> un s x = U x) -> length (uH hs) <= fuel ->
  exists U', invalidate fuel (hdu hs) s = Ret (set_un s U') /\
    (forall x, In x (uH hs) -> U' x = option_map unvalid (un s x)) /\ (forall x, ~ In x (uH hs) -> U' x = un s x).
Proof.
  induction hs as [|u t r IH]; intros h U L p fuel s Hh ND EU F.
  - exists (un s). destruct fuel, s; cbn; (split; [reflexivity|]); (split; [intros x []|reflexivity]).
  - destruct Hh as (E & _ & Hr). cbn [uH hdu length] in *. destruct fuel as [|fuel]; [lia|]. cbn [invalidate].
    assert (Eu : un s u = Some (Undo (Some L) (cof t) (hdu r) p)) by (rewrite EU by (left; reflexivity); exact E).
    assert (NI : ~ In u (uH r)) by (specialize (ND u); rewrite cnt_cons, one_same in ND; apply cnt_notin; lia).
    unfold rd_undo, wr_undo. rewrite Eu. cbn [bind u_next u_save u_prev].
    set (s1 := set_un s _).
    destruct (IH h U L (Some u) fuel s1 Hr) as (U' & EI & A & B).
    + intros x. specialize (ND x). rewrite cnt_cons in ND. lia.
    + intros x Hx. unfold s1. cbn [un set_un]. rewrite upd_other by (intros ->; contradiction). apply EU. right. exact Hx.
    + lia.
    + exists U'. rewrite EI. split; [reflexivity|]. split.
      * intros x [<-|Hx].
        -- rewrite B by exact NI. unfold s1. cbn [un set_un]. rewrite upd_same, Eu. reflexivity.
        -- rewrite A by exact Hx. unfold s1. cbn [un set_un]. rewrite upd_other by (intros ->; contradiction). reflexivity.
      * intros x Nx. rewrite B by (intros Hx; apply Nx; right; exact Hx). unfold s1. cbn [un set_un].
        apply upd_other. intros ->. apply Nx. left. reflexivity.
Qed.
