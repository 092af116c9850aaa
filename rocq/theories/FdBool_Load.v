(** The constraints posted for a tree: no solution lost, none added. *)
Require Import ZArith List Bool String Lia.
Require Import Verif.FdBool_Model Verif.FdBool_Spec Verif.FdBool_Proofs.
Import ListNotations.
Open Scope Z_scope.

Section L.
Variable value : asg -> term -> Z.
Variable defined : asg -> term -> Prop.
Variable load_left_right : term -> term -> store -> store * (Z * Z * word * word).
Notation holds := (holds value). Notation sat := (sat value). Notation store_ok := (store_ok value).
Notation cst_below := (cst_below value). Notation term_below := (term_below value). Notation tval := (tval value).
Hypothesis LOK : load_ok value defined load_left_right.
Hypothesis DB : forall n t a b, term_below n t -> agree n a b -> defined a t -> defined b t.

Definition tree_below (n : nat) (t : nt) : Prop :=
  (forall v, In v (tvars t) -> (v < n)%nat) /\ (forall x, In x (tterms t) -> term_below n x).
Definition bits (a : asg) (t : nt) : Prop := forall v, In v (tvars t) -> bit (a v).
Definition def (a : asg) (t : nt) : Prop := forall x, In x (tterms t) -> defined a x.
Fixpoint depth (t : nt) : nat := match t with NOp _ l r => S (Nat.max (depth l) (depth r)) | _ => 1%nat end.

Lemma agree_refl n a : agree n a a.
Proof. intros v _. reflexivity. Qed.
Lemma agree_sym n a b : agree n a b -> agree n b a.
Proof. intros A v L. symmetry. auto. Qed.
Lemma agree_le n m a b : agree m a b -> (n <= m)%nat -> agree n a b.
Proof. intros A L v Lv. apply A. lia. Qed.
Lemma agree_trans n a b d : agree n a b -> agree n b d -> agree n a d.
Proof. intros A B v L. rewrite A; auto. Qed.
Lemma val_agree n a b w : word_below n w -> agree n a b -> val a w = val b w.
Proof. destruct w; cbn; auto. Qed.
Lemma tval_agree n a b t : tree_below n t -> agree n a b -> tval a t = tval b t.
Proof.
  intros [V W] A. induction t as [v|v|k|op l IHl r IHr|k le re]; cbn [FdBool_Proofs.tval tvars tterms] in *; auto.
  - rewrite A; [auto|apply V; cbn; auto].
  - rewrite A; [auto|apply V; cbn; auto].
  - rewrite IHl, IHr; auto; intros x J; first [apply V|apply W]; apply in_or_app; auto.
  - destruct (W le (or_introl eq_refl)) as [E1 _]. destruct (W re (or_intror (or_introl eq_refl))) as [E2 _].
    rewrite (E1 a b A), (E2 a b A). reflexivity.
Qed.
Lemma term_below_le n m t : term_below n t -> (n <= m)%nat -> term_below m t.
Proof. intros [A B] L. split; [intros a b Q; apply A; eapply agree_le; eauto|]. intros v J. specialize (B v J). lia. Qed.
Lemma tree_below_le n m t : tree_below n t -> (n <= m)%nat -> tree_below m t.
Proof. intros [A B] L. split; [intros v J; specialize (A v J); lia|]. intros x J. eapply term_below_le; eauto. Qed.
Lemma cst_below_le n m k : cst_below n k -> (n <= m)%nat -> cst_below m k.
Proof. intros A L a b Q. apply A. eapply agree_le; eauto. Qed.
Lemma word_below_le n m w : word_below n w -> (n <= m)%nat -> word_below m w.
Proof. destruct w; cbn; lia. Qed.
Lemma bits_agree n a b t : tree_below n t -> agree n a b -> bits a t -> bits b t.
Proof. intros [V _] A Q v J. rewrite <- (A v (V v J)). auto. Qed.
Lemma def_agree n a b t : tree_below n t -> agree n a b -> def a t -> def b t.
Proof. intros [_ V] A Q x J. eapply DB; eauto. Qed.

(** ** Stores *)
Definition ext (s s' : store) (Q : asg -> Prop) : Prop :=
  (next s <= next s')%nat /\ store_ok s' /\ (forall a, sat a s' -> sat a s) /\
  (forall a, sat a s -> Q a -> exists a', agree (next s) a a' /\ sat a' s').
Lemma ext_refl s Q : store_ok s -> ext s s Q.
Proof. intros K. split; [lia|]. split; [auto|]. split; [auto|]. intros a Sa _. exists a. auto using agree_refl. Qed.
Lemma ext_trans s s1 s2 (Q Q1 Q2 : asg -> Prop) : ext s s1 Q1 -> ext s1 s2 Q2 -> (forall a, Q a -> Q1 a) ->
  (forall a a', Q a -> sat a s -> agree (next s) a a' -> sat a' s1 -> Q2 a') -> ext s s2 Q.
Proof.
  intros (A1 & A2 & A3 & A4) (B1 & B2 & B3 & B4) I1 I2. split; [lia|]. split; [auto|]. split; [auto|].
  intros a Sa Qa. destruct (A4 a Sa (I1 a Qa)) as (a1 & E1 & S1). destruct (B4 a1 S1 (I2 a a1 Qa Sa E1 S1)) as (a2 & E2 & S2).
  exists a2. split; [|auto]. eapply agree_trans; [exact E1|]. eapply agree_le; eauto.
Qed.
Lemma ext_imp s s' (Q Q' : asg -> Prop) : ext s s' Q -> (forall a, Q' a -> Q a) -> ext s s' Q'.
Proof. intros (A1 & A2 & A3 & A4) I1. split; [auto|]. split; [auto|]. split; auto. Qed.
Lemma ext_post s k (Q : asg -> Prop) : store_ok s -> cst_below (next s) k -> (forall a, sat a s -> Q a -> holds a k) -> ext s (post k s) Q.
Proof.
  intros K B I1. split; [cbn; lia|]. split; [|split].
  - intros k' [<-|J]; [exact B|exact (K k' J)].
  - intros a Sa k' J. apply Sa. now right.
  - intros a Sa Qa. exists a. split; [apply agree_refl|]. intros k' [<-|J]; auto.
Qed.
Definition set (a : asg) (n : nat) (z : Z) : asg := fun v => if Nat.eqb v n then z else a v.
Lemma agree_set a n z : agree n a (set a n z).
Proof. intros v L. unfold set. destruct (Nat.eqb_spec v n); [lia|auto]. Qed.
Lemma ext_new s (g : asg -> bool) : store_ok s ->
  ext s (snd (new_bool s)) (fun _ => True) /\
  (forall a, sat a s -> exists a', agree (next s) a a' /\ a' (next s) = Z.b2z (g a) /\ sat a' (snd (new_bool s))).
Proof.
  intros K.
  assert (X : forall a z, bit z -> sat a s -> sat (set a (next s) z) (snd (new_bool s))).
  { intros a z Bz Sa k [<-|J]; [cbn; unfold set; rewrite Nat.eqb_refl; auto|]. apply (K k J a); [apply agree_set|now apply Sa]. }
  split.
  - split; [cbn; lia|]. split; [|split].
    + intros k [<-|J].
      * intros a b A. cbn. rewrite (A (next s)); [auto|cbn; lia].
      * eapply cst_below_le; [exact (K k J)|cbn; lia].
    + intros a Sa k J. apply Sa. now right.
    + intros a Sa _. exists (set a (next s) 0). split; [apply agree_set|]. apply X; [now left|auto].
  - intros a Sa. exists (set a (next s) (Z.b2z (g a))). split; [apply agree_set|]. split; [unfold set; now rewrite Nat.eqb_refl|].
    apply X; [destruct (g a); cbn; unfold bit; auto|auto].
Qed.
(** a new boolean, then more *)
Lemma ext_bool s s' (Q : asg -> Prop) (g : asg -> bool) (Q' : asg -> Prop) : store_ok s -> ext (snd (new_bool s)) s' Q' ->
  (forall a a', sat a s -> Q a -> agree (next s) a a' -> a' (next s) = Z.b2z (g a) -> Q' a') -> ext s s' Q.
Proof.
  intros K (B1 & B2 & B3 & B4) I1. destruct (ext_new s g K) as [(A1 & A2 & A3 & _) A4]. split; [lia|]. split; [auto|]. split; [auto|].
  intros a Sa Qa. destruct (A4 a Sa) as (a1 & E1 & V1 & S1). destruct (B4 a1 S1 (I1 a a1 Sa Qa E1 V1)) as (a2 & E2 & S2).
  exists a2. split; [|auto]. eapply agree_trans; [exact E1|]. eapply agree_le; eauto.
Qed.

(** ** Primitives *)
Definition wp (k : cst) (n : nat) : Prop :=
  match k with
  | CInt _ w | CBool w | CFd w => word_below n w
  | not_x_eq_b x b | x_imply_y_eq_1 x b | x_and_y_eq_0 x b | x_or_y_eq_1 x b | Unify_X_Y x b => word_below n x /\ word_below n b
  | x_equiv_y_eq_b x y b | x_nequiv_y_eq_b x y b | x_imply_y_eq_b x y b | x_nimply_y_eq_b x y b | x_and_y_eq_b x y b
  | x_nand_y_eq_b x y b | x_or_y_eq_b x y b | x_nor_y_eq_b x y b => word_below n x /\ word_below n y /\ word_below n b
  | truth_x_eq_c x _ b | truth_x_neq_c x _ b | truth_x_lte_c x _ b | truth_x_gte_c x _ b => word_below n x /\ word_below n b
  | truth_x_eq_y x y b | truth_x_neq_y x y b | truth_x_lt_y x y b | truth_x_lte_y x y b
  | truth_x_plus_c_eq_y x _ y b | truth_x_plus_c_neq_y x _ y b
  | truth_x_plus_c_lte_y x _ y b | truth_x_plus_c_gte_y x _ y b => word_below n x /\ word_below n y /\ word_below n b
  | Fd_Eq_2 l r | Fd_Neq_2 l r | Fd_Lt_2 l r | Fd_Lte_2 l r => term_below n l /\ term_below n r
  | Aux _ => False
  end.
Lemma wp_below k n : wp k n -> cst_below n k.
Proof.
  destruct k; cbn [wp]; intros W a e A; cbn [FdBool_Spec.holds]; try contradiction;
  repeat match goal with W : _ /\ _ |- _ => destruct W end;
  repeat match goal with W : word_below n ?w |- _ => rewrite (val_agree n a e w W A); clear W end;
  repeat match goal with W : FdBool_Spec.term_below value n ?t |- _ => destruct W as [W _]; rewrite (W a e A); clear W end; auto.
Qed.

(** ** Loading a tree *)
Definition Qt (t : nt) (result : Z) (a : asg) : Prop := bits a t /\ def a t /\ (result = 2 \/ tval a t = (result =? 1)).
Definition gives (t : nt) (result : Z) (s : store) (w : option word) (s' : store) : Prop :=
  ext s s' (Qt t result) /\
  match w with
  | None => result <> 2 /\ (forall a, sat a s' -> bits a t -> tval a t = (result =? 1))
  | Some w => result = 2 /\ word_below (next s') w /\ (forall a, sat a s' -> bits a t -> val a w = Z.b2z (tval a t))
  end.
Definition step (t : nt) (result : Z) (s : store) (r : res (option word * store)) : Prop :=
  exists w s', r = Ret (w, s') /\ gives t result s w s'.
Lemma b2z_bit x : bit (Z.b2z x).
Proof. destruct x; cbn; unfold bit; auto. Qed.
Lemma b2z_inj x y : Z.b2z x = Z.b2z y -> x = y.
Proof. destruct x, y; cbn; congruence. Qed.
Lemma tv_b2z x : tv (Z.b2z x) = x.
Proof. destruct x; reflexivity. Qed.
Lemma bits_l a op l r : bits a (NOp op l r) -> bits a l /\ bits a r.
Proof. intros B. split; intros v J; apply B; cbn; apply in_or_app; auto. Qed.
Lemma def_l a op l r : def a (NOp op l r) -> def a l /\ def a r.
Proof. intros B. split; intros v J; apply B; cbn; apply in_or_app; auto. Qed.
Lemma below_l n op l r : tree_below n (NOp op l r) -> tree_below n l /\ tree_below n r.
Proof. intros [B D]. split; (split; intros v J; [apply B|apply D]; cbn; apply in_or_app; auto). Qed.

(** both operands into words *)
Definition both (op : Z) (l r : nt) (s s2 : store) (wl wr : word) : Prop :=
  ext s s2 (fun a => bits a (NOp op l r) /\ def a (NOp op l r)) /\ word_below (next s2) wl /\ word_below (next s2) wr /\
  (forall a, sat a s2 -> bits a (NOp op l r) -> val a wl = Z.b2z (tval a l) /\ val a wr = Z.b2z (tval a r)).
Lemma fin_post op l r s s2 wl wr result k : both op l r s s2 wl wr -> result = 0 \/ result = 1 -> tree_below (next s) (NOp op l r) ->
  wp k (next s2) ->
  (forall a x y, val a wl = Z.b2z x -> val a wr = Z.b2z y -> (holds a k <-> bf op x y = (result =? 1))) ->
  gives (NOp op l r) result s None (BOOL_CSTR wl wr k s2) /\ gives (NOp op l r) result s None (post k s2).
Proof.
  intros (E & W1 & W2 & V) Hr Tb Wk Hk. pose proof E as (E1 & E2 & E3 & E4).
  assert (X : forall a, sat a s2 -> bits a (NOp op l r) -> (holds a k <-> tval a (NOp op l r) = (result =? 1))).
  { intros a Sa Ba. destruct (V a Sa Ba) as [V1 V2]. cbn [FdBool_Proofs.tval]. now apply Hk. }
  assert (Y : ext s2 (BOOL_CSTR wl wr k s2) (Qt (NOp op l r) result)).
  { unfold BOOL_CSTR. eapply (ext_trans s2 (post (CBool wl) s2) _ _ (Qt (NOp op l r) result) (Qt (NOp op l r) result)); [| |auto|].
    - apply ext_post; [auto|apply wp_below; exact W1|]. intros a Sa (Ba & _). destruct (V a Sa Ba) as [Q _]. cbn. rewrite Q. apply b2z_bit.
    - eapply (ext_trans _ (post (CBool wr) (post (CBool wl) s2)) _ _ (Qt (NOp op l r) result) (Qt (NOp op l r) result)); [| |auto|].
      + apply ext_post; [|apply wp_below; exact W2|].
        * intros k' [<-|J]; [apply wp_below; exact W1|exact (E2 k' J)].
        * intros a Sa (Ba & _). assert (Sa' : sat a s2) by (intros k' J; apply Sa; now right).
          destruct (V a Sa' Ba) as [_ Q]. cbn. rewrite Q. apply b2z_bit.
      + apply ext_post; [|apply wp_below; exact Wk|].
        * intros k' [<-|[<-|J]]; [apply wp_below; exact W2|apply wp_below; exact W1|exact (E2 k' J)].
        * intros a Sa (Ba & Da & C). assert (Sa' : sat a s2) by (intros k' J; apply Sa; right; now right).
          apply X; auto. destruct C; [lia|auto].
      + intros a a' Qa Sa A Sa'. destruct Qa as (Ba & Da & C).
        assert (Tb' : tree_below (next s2) (NOp op l r)) by (eapply tree_below_le; [exact Tb|lia]).
        split; [eapply bits_agree; eauto|]. split; [eapply def_agree; eauto|]. rewrite <- (tval_agree _ a a' _ Tb' A). auto.
    - intros a a' Qa Sa A Sa'. destruct Qa as (Ba & Da & C).
      assert (Tb' : tree_below (next s2) (NOp op l r)) by (eapply tree_below_le; [exact Tb|lia]).
      split; [eapply bits_agree; eauto|]. split; [eapply def_agree; eauto|]. rewrite <- (tval_agree _ a a' _ Tb' A). auto. }
  assert (Y' : ext s2 (post k s2) (Qt (NOp op l r) result)).
  { apply ext_post; [auto|apply wp_below; exact Wk|]. intros a Sa (Ba & Da & C). apply X; auto. destruct C; [lia|auto]. }
  assert (Z0 : forall a a', Qt (NOp op l r) result a -> sat a s -> agree (next s) a a' -> sat a' s2 -> Qt (NOp op l r) result a').
  { intros a a' (Ba & Da & C) Sa A Sa'. split; [eapply bits_agree; eauto|]. split; [eapply def_agree; eauto|].
    rewrite <- (tval_agree _ a a' _ Tb A). auto. }
  split; (split; [eapply ext_trans; [exact E|first [exact Y|exact Y']|intros a (Ba & Da & _); auto|exact Z0]|]);
    (split; [lia|]); intros a Sa Ba; (assert (Sa' : sat a s2) by (intros k' J; apply Sa; unfold BOOL_CSTR, post; cbn; auto));
    (apply X; [auto|auto|apply Sa; now left]).
Qed.
Lemma fin_into op l r s s2 wl wr (k : word -> cst) : both op l r s s2 wl wr -> tree_below (next s) (NOp op l r) ->
  (forall n b, word_below n wl -> word_below n wr -> word_below n b -> wp (k b) n) ->
  (forall a b x y, val a wl = Z.b2z x -> val a wr = Z.b2z y -> (holds a (k b) <-> val a b = Z.b2z (bf op x y))) ->
  step (NOp op l r) 2 s (let (b, s) := new_bool s2 in Ret (Some b, BOOL_CSTR wl wr (k b) s)).
Proof.
  intros (E & W1 & W2 & V) Tb Wk Hk. pose proof E as (E1 & E2 & E3 & E4). cbn [new_bool].
  set (b := WVar (next s2)). set (s3 := Store (S (next s2)) (CBool b :: csts s2)).
  exists (Some b), (BOOL_CSTR wl wr (k b) s3). split; [reflexivity|].
  assert (L : (next s2 <= next s3)%nat) by (cbn; lia).
  assert (W1' := word_below_le _ _ _ W1 L). assert (W2' := word_below_le _ _ _ W2 L).
  assert (Wb : word_below (next s3) b) by (cbn; lia).
  assert (K3 : store_ok s3) by (destruct (ext_new s2 (fun _ => true) E2) as [(_ & K & _) _]; exact K).
  assert (X : forall a, sat a s2 -> bits a (NOp op l r) -> (holds a (k b) <-> val a b = Z.b2z (tval a (NOp op l r)))).
  { intros a Sa Ba. destruct (V a Sa Ba) as [V1 V2]. cbn [FdBool_Proofs.tval]. now apply Hk. }
  split.
  - eapply (ext_trans s s2 _ _ (fun a => bits a (NOp op l r) /\ def a (NOp op l r)) (Qt (NOp op l r) 2)); [exact E| |intros a (Ba & Da & _); auto|].
    + eapply (ext_bool s2 _ _ (fun a => tval a (NOp op l r)) (fun a => bits a (NOp op l r) /\ a (next s2) = Z.b2z (tval a (NOp op l r)))); [auto| |].
      * split; [cbn; lia|]. split; [|split].
        -- intros k' [<-|[<-|[<-|J]]]; [apply wp_below, Wk; auto|apply wp_below; exact W2'|apply wp_below; exact W1'|exact (K3 k' J)].
        -- intros a Sa k' J. apply Sa. unfold BOOL_CSTR, post. cbn. auto.
        -- intros a Sa (Ba & Va). exists a. split; [apply agree_refl|].
           assert (Sa' : sat a s2) by (intros k' J; apply Sa; now right).
           destruct (V a Sa' Ba) as [V1 V2].
           intros k' [<-|[<-|[<-|J]]]; [apply X; auto|cbn; rewrite V2; apply b2z_bit|cbn; rewrite V1; apply b2z_bit|exact (Sa k' J)].
      * intros a a' Sa (Ba & Da & _) A Va.
        assert (Tb' : tree_below (next s2) (NOp op l r)) by (eapply tree_below_le; [exact Tb|lia]).
        split; [eapply bits_agree; eauto|]. rewrite Va. now rewrite (tval_agree _ a a' _ Tb' A).
    + intros a a' (Ba & Da & C) Sa A Sa'. split; [eapply bits_agree; eauto|]. split; [eapply def_agree; eauto|]. now left.
  - split; [reflexivity|]. split; [exact Wb|]. intros a Sa Ba.
    assert (Sa' : sat a s2) by (intros k' J; apply Sa; unfold BOOL_CSTR, post; cbn; auto).
    apply X; auto. apply Sa. now left.
Qed.
(** one after the other, no word *)
Lemma fin_seq op l r s s1 s2 r1 r2 result w1 w2 : (r1 = 0 \/ r1 = 1) -> (r2 = 0 \/ r2 = 1) -> result = 0 \/ result = 1 ->
  tree_below (next s) (NOp op l r) -> gives l r1 s w1 s1 -> gives r r2 s1 w2 s2 ->
  (forall x y, bf op x y = (result =? 1) <-> (x = (r1 =? 1) /\ y = (r2 =? 1))) -> step (NOp op l r) result s (Ret (None, s2)).
Proof.
  intros H1 H2 Hr Tb (E1 & G1) (E2 & G2) Hb. pose proof E1 as (_ & _ & _ & _). pose proof E2 as (_ & _ & E23 & _).
  destruct w1 as [w|]; [destruct G1; lia|]. destruct w2 as [w|]; [destruct G2; lia|]. destruct G1 as [_ G1]. destruct G2 as [_ G2].
  destruct (below_l _ _ _ _ Tb) as [Tl Tr].
  exists None, s2. split; [reflexivity|]. split.
  - eapply ext_trans; [exact E1|exact E2| |].
    + intros a (Ba & Da & C). destruct C as [C|C]; [lia|]. cbn [FdBool_Proofs.tval] in C. apply Hb in C as [C1 C2].
      split; [now apply (bits_l a op l r)|]. split; [now apply (def_l a op l r)|auto].
    + intros a a' (Ba & Da & C) Sa A Sa'. destruct C as [C|C]; [lia|]. cbn [FdBool_Proofs.tval] in C. apply Hb in C as [C1 C2].
      split; [eapply bits_agree; [exact Tr|exact A|now apply (bits_l a op l r)]|].
      split; [eapply def_agree; [exact Tr|exact A|now apply (def_l a op l r)]|]. rewrite <- (tval_agree _ a a' _ Tr A). auto.
  - split; [lia|]. intros a Sa Ba. cbn [FdBool_Proofs.tval]. apply Hb. destruct (bits_l _ _ _ _ Ba). split; [apply G1|apply G2]; auto.
Qed.

(** no word: one constraint *)
Lemma fin_post1 t result s k : store_ok s -> result = 0 \/ result = 1 -> wp k (next s) ->
  (forall a, bits a t -> (holds a k <-> tval a t = (result =? 1))) -> step t result s (Ret (None, post k s)).
Proof.
  intros K Hr W Hk. exists None, (post k s). split; [reflexivity|]. split.
  - apply ext_post; [auto|now apply wp_below|]. intros a Sa (Ba & Da & C). apply Hk; auto. destruct C; [lia|auto].
  - split; [lia|]. intros a Sa Ba. apply Hk; auto. apply Sa. now left.
Qed.
(** the comparisons *)
Lemma fin_truth n le re s s1 mask c l r k : store_ok s -> term_below (next s) le -> term_below (next s) re ->
  load_left_right le re (snd (new_bool s)) = (s1, (mask, c, l, r)) ->
  (word_below (next s1) l -> word_below (next s1) r -> word_below (next s1) (WVar (next s)) -> wp k (next s1)) ->
  (forall a, value a le - value a re = part a (Z.testbit mask 0) l + c - part a (Z.testbit mask 1) r ->
     0 <= part a (Z.testbit mask 0) l -> 0 <= part a (Z.testbit mask 1) r ->
     exists p, holds a k = (val a (WVar (next s)) = Z.b2z p) /\ p = cmpf n (value a le) (value a re)) ->
  gives (NCmp n le re) 2 s (Some (WVar (next s))) (post k s1).
Proof.
  intros K Tl Tr E Wk Hk. set (s0 := snd (new_bool s)) in *.
  destruct (ext_new s (fun _ => true) K) as [(A1 & A2 & A3 & _) _]. fold s0 in A1, A2, A3.
  destruct (LOK le re s0 s1 mask c l r A2 (term_below_le _ _ _ Tl A1) (term_below_le _ _ _ Tr A1) E) as (_ & B1 & B2 & B3 & B4 & B5 & B6).
  assert (L : (S (next s) <= next s1)%nat) by (cbn [s0 new_bool snd next] in B1; lia).
  assert (Wb : word_below (next s1) (WVar (next s))) by (cbn; lia).
  assert (X : forall a, sat a s1 -> (holds a k <-> val a (WVar (next s)) = Z.b2z (tval a (NCmp n le re)))).
  { intros a Sa. destruct (B5 a Sa) as (_ & D1 & D2 & D3). destruct (Hk a D1 D2 D3) as (p & -> & ->). reflexivity. }
  split.
  - apply (ext_bool s _ _ (fun a => tval a (NCmp n le re))
      (fun a => (defined a le /\ defined a re) /\ a (next s) = Z.b2z (tval a (NCmp n le re)))); [auto| |].
    + fold s0. split; [cbn [post next]; lia|]. split; [|split].
      * intros k' [<-|J]; [apply wp_below; auto|exact (B2 k' J)].
      * intros a Sa. apply B5. intros k' J. apply Sa. now right.
      * intros a Sa ((Dl & Dr) & Va). destruct (B6 a Sa Dl Dr) as (a' & Ag & Sa'). exists a'. split; [auto|].
        intros k' [<-|J]; [|exact (Sa' k' J)]. apply X; auto. cbn [val]. rewrite <- (Ag (next s)) by (cbn; lia). rewrite Va.
        f_equal. apply (tval_agree (next s)); [|eapply agree_le; [exact Ag|cbn; lia]].
        split; [intros v []|]. intros x [<-|[<-|[]]]; auto.
    + intros a a' Sa (Ba & Da & _) Ag Va. split; [split; eapply DB; [exact Tl|exact Ag| |exact Tr|exact Ag|]; apply Da; cbn; auto|].
      rewrite Va. f_equal. apply (tval_agree (next s)); [|exact Ag]. split; [intros v []|]. intros x [<-|[<-|[]]]; auto.
  - split; [reflexivity|]. split; [cbn [post next]; exact Wb|]. intros a Sa _. apply X.
    + intros k' J. apply Sa. now right.
    + apply Sa. now left.
Qed.
Ltac cmp_tac := repeat match goal with
  | |- context [?x =? ?y] => destruct (Z.eqb_spec x y)
  | |- context [?x <? ?y] => destruct (Z.ltb_spec x y)
  | |- context [?x <=? ?y] => destruct (Z.leb_spec x y)
  end; cbn [negb]; try reflexivity; exfalso; lia.
Ltac truth_tac := 
  intros s le re b s0 K Tl Tr; unfold Truth_Eq, Truth_Neq, Truth_Lt, Truth_Lte, s0;
  destruct (load_left_right le re (snd (new_bool s))) as [s1 [[[mask n] l] r]] eqn:E;
  destruct (ext_new s (fun _ => true) K) as [(A1 & A2 & A3 & _) _];
  destruct (LOK le re _ s1 mask n l r A2 (term_below_le _ _ _ Tl A1) (term_below_le _ _ _ Tr A1) E) as (M & _);
  assert (C : mask = 0 \/ mask = 1 \/ mask = 2 \/ mask = 3) by lia;
  destruct C as [C|[C|[C|C]]]; subst mask; unfold MASK_EMPTY, MASK_LEFT, MASK_RIGHT; cbn [Z.eqb Pos.eqb];
  repeat match goal with |- context [if ?x <? ?y then _ else _] => destruct (Z.ltb_spec x y)
                       | |- context [if ?x <=? ?y then _ else _] => destruct (Z.leb_spec x y) end;
  (eapply fin_truth; [exact K|exact Tl|exact Tr|exact E|cbn [wp]; auto|]);
  intros a; cbn [Z.testbit Pos.testbit part Z.odd Pos.pred_N]; intros D1 D2 D3; cbn [FdBool_Spec.holds]; unfold tells;
  (first [exists false; split; [reflexivity|]|exists true; split; [reflexivity|]|eexists; split; [reflexivity|]]); cbn [cmpf]; cmp_tac.
Lemma truth_eq n : n = 9 \/ n = 15 -> forall s le re, let b := WVar (next s) in let s0 := snd (new_bool s) in store_ok s ->
  term_below (next s) le -> term_below (next s) re -> gives (NCmp n le re) 2 s (Some b) (Truth_Eq load_left_right le re b s0).
Proof. intros [-> | ->]; truth_tac. Qed.
Lemma truth_neq n : n = 10 \/ n = 16 -> forall s le re, let b := WVar (next s) in let s0 := snd (new_bool s) in store_ok s ->
  term_below (next s) le -> term_below (next s) re -> gives (NCmp n le re) 2 s (Some b) (Truth_Neq load_left_right le re b s0).
Proof. intros [-> | ->]; truth_tac. Qed.
Lemma truth_lt n : n = 11 \/ n = 17 -> forall s le re, let b := WVar (next s) in let s0 := snd (new_bool s) in store_ok s ->
  term_below (next s) le -> term_below (next s) re -> gives (NCmp n le re) 2 s (Some b) (Truth_Lt load_left_right le re b s0).
Proof. intros [-> | ->]; truth_tac. Qed.
Lemma truth_lte n : n = 14 \/ n = 20 -> forall s le re, let b := WVar (next s) in let s0 := snd (new_bool s) in store_ok s ->
  term_below (next s) le -> term_below (next s) re -> gives (NCmp n le re) 2 s (Some b) (Truth_Lte load_left_right le re b s0).
Proof. intros [-> | ->]; truth_tac. Qed.

Lemma load2_ok op l r s (f g : store -> res (option word * store)) : store_ok s -> tree_below (next s) (NOp op l r) ->
  (forall s, store_ok s -> tree_below (next s) l -> step l 2 s (f s)) ->
  (forall s, store_ok s -> tree_below (next s) r -> step r 2 s (g s)) ->
  exists wl wr s2, both op l r s s2 wl wr /\ forall k : word -> word -> store -> res (option word * store),
    (do (x, s) <- f s; do (y, s) <- g s; match x, y with Some l, Some r => k l r s | _, _ => UB end) = k wl wr s2.
Proof.
  intros K Tb Hf Hg. destruct (below_l _ _ _ _ Tb) as [Tl Tr].
  destruct (Hf s K Tl) as (w1 & s1 & Ef & E1 & G1). pose proof E1 as (L1 & K1 & M1 & _).
  destruct w1 as [wl|]; [|destruct G1; lia]. destruct G1 as (_ & W1 & V1).
  destruct (Hg s1 K1 (tree_below_le _ _ _ Tr L1)) as (w2 & s2 & Eg & E2 & G2). pose proof E2 as (L2 & K2 & M2 & _).
  destruct w2 as [wr|]; [|destruct G2; lia]. destruct G2 as (_ & W2 & V2).
  exists wl, wr, s2. split.
  - split; [|split; [|split; [exact W2|]]].
    + eapply ext_trans; [exact E1|exact E2| |].
      * intros a (Ba & Da). split; [now apply (bits_l a op l r)|]. split; [now apply (def_l a op l r)|now left].
      * intros a a' (Ba & Da) Sa A Sa'.
        split; [eapply bits_agree; [exact Tr|exact A|now apply (bits_l a op l r)]|].
        split; [eapply def_agree; [exact Tr|exact A|now apply (def_l a op l r)]|now left].
    + eapply word_below_le; [exact W1|exact L2].
    + intros a Sa Ba. destruct (bits_l _ _ _ _ Ba). auto.
  - intros k. rewrite Ef. cbn [bind]. rewrite Eg. reflexivity.
Qed.
Lemma seq_ok op l r s (f g : store -> res (option word * store)) r1 r2 result : (r1 = 0 \/ r1 = 1) -> (r2 = 0 \/ r2 = 1) -> result = 0 \/ result = 1 ->
  store_ok s -> tree_below (next s) (NOp op l r) ->
  (forall s, store_ok s -> tree_below (next s) l -> step l r1 s (f s)) ->
  (forall s, store_ok s -> tree_below (next s) r -> step r r2 s (g s)) ->
  (forall x y, bf op x y = (result =? 1) <-> (x = (r1 =? 1) /\ y = (r2 =? 1))) ->
  step (NOp op l r) result s (do (_, s) <- f s; do (_, s) <- g s; Ret (None, s)).
Proof.
  intros H1 H2 Hr K Tb Hf Hg Hb. destruct (below_l _ _ _ _ Tb) as [Tl Tr].
  destruct (Hf s K Tl) as (w1 & s1 & Ef & G1). pose proof G1 as ((L1 & K1 & _) & _).
  destruct (Hg s1 K1 (tree_below_le _ _ _ Tr L1)) as (w2 & s2 & Eg & G2).
  rewrite Ef. cbn [bind]. rewrite Eg. cbn [bind]. eapply (fin_seq op l r s s1 s2 r1 r2); eauto.
Qed.
Ltac bop_iff := intros; cbn [FdBool_Spec.holds]; unfold tells;
  repeat match goal with W : val _ _ = Z.b2z _ |- _ => rewrite W; clear W end; rewrite ?tv_b2z;
  repeat match goal with b : bool |- _ => destruct b end; cbn in *; intuition (try congruence; try lia).

Lemma Load_ok m t : okt t -> forall fuel p lo hi result s, (depth t <= fuel)%nat -> rep m lo hi p t ->
  result = 0 \/ result = 1 \/ result = 2 -> store_ok s -> tree_below (next s) t ->
  step t result s (Load load_left_right fuel m p result s).
Proof.
  induction t as [v|v|b|op l IHl r IHr|n le re]; intros Ok fuel p lo hi result s Dp Rp Hr K Tb;
  (destruct fuel as [|fuel]; [cbn in Dp; lia|]); cbn [depth] in Dp.
  - cbn [rep] in Rp. destruct Rp as [_ Rp]. cbn [Load]. rewrite Rp.
    assert (Lv : (v < next s)%nat) by (apply Tb; cbn; auto).
    destruct Hr as [->|[->| ->]]; cbn [Z.eqb Pos.eqb].
    + apply fin_post1; auto. intros a Ba. destruct (Ba v (or_introl eq_refl)) as [Q|Q]; cbn; rewrite Q; cbn; intuition (try congruence; try lia).
    + apply fin_post1; auto. intros a Ba. destruct (Ba v (or_introl eq_refl)) as [Q|Q]; cbn; rewrite Q; cbn; intuition (try congruence; try lia).
    + exists (Some (WVar v)), s. split; [reflexivity|]. split; [now apply ext_refl|]. split; [reflexivity|]. split; [exact Lv|].
      intros a Sa Ba. cbn. destruct (Ba v (or_introl eq_refl)) as [Q|Q]; rewrite Q; reflexivity.
  - cbn [rep] in Rp. destruct Rp as (_ & _ & R1 & R2). cbn [Load]. rewrite R1, R2.
    assert (Lv : (v < next s)%nat) by (apply Tb; cbn; auto).
    cbn [NOT EQ_F LTE_F ZERO ONE Z.eqb Z.leb Z.compare Pos.eqb andb].
    destruct Hr as [->|[->| ->]]; cbn [Z.eqb Pos.eqb].
    + apply fin_post1; auto. intros a Ba. destruct (Ba v (or_introl eq_refl)) as [Q|Q]; cbn; rewrite Q; cbn; intuition (try congruence; try lia).
    + apply fin_post1; auto. intros a Ba. destruct (Ba v (or_introl eq_refl)) as [Q|Q]; cbn; rewrite Q; cbn; intuition (try congruence; try lia).
    + cbn [new_bool]. set (b := WVar (next s)). set (s0 := Store (S (next s)) (CBool b :: csts s)).
      exists (Some b), (BOOL_CSTR (WVar v) b (not_x_eq_b (WVar v) b) s0). split; [reflexivity|].
      assert (K0 : store_ok s0) by (destruct (ext_new s (fun _ => true) K) as [(_ & Q & _) _]; exact Q).
      split; [|split; [reflexivity|split; [cbn; lia|]]].
      * apply (ext_bool s _ _ (fun a => negb (a v =? 1)) (fun a => bit (a v) /\ a (next s) = 1 - a v)); [auto| |].
        -- split; [cbn; lia|]. split; [|split].
           ++ intros k' [<-|[<-|[<-|J]]]; [apply wp_below; cbn; lia|apply wp_below; cbn; lia|apply wp_below; cbn; lia|exact (K0 k' J)].
           ++ intros a Sa k' J. apply Sa. unfold BOOL_CSTR, post. cbn. auto.
           ++ intros a Sa (Ba & Va). exists a. split; [apply agree_refl|].
              intros k' [<-|[<-|[<-|J]]]; [exact Va| |exact Ba|exact (Sa k' J)]. cbn. unfold bit in *. lia.
        -- intros a a' Sa (Ba & _) A Va. destruct (Ba v (or_introl eq_refl)) as [Q|Q]; rewrite Q in Va; cbn in Va;
           rewrite <- (A v Lv), Q; unfold bit; lia.
      * intros a Sa Ba. assert (Q : val a b = 1 - a v) by (apply (Sa (not_x_eq_b (WVar v) b)); now left).
        rewrite Q. cbn. destruct (Ba v (or_introl eq_refl)) as [Q'|Q']; rewrite Q'; reflexivity.
  - destruct Ok.
  - cbn [rep] in Rp. destruct Rp as (_ & _ & R0 & p1 & p2 & R1 & R2 & Rl & Rr). cbn [okt] in Ok. destruct Ok as (Bo & Okl & Okr).
    assert (Hl : forall res, res = 0 \/ res = 1 \/ res = 2 -> forall s, store_ok s -> tree_below (next s) l -> step l res s (Load load_left_right fuel m p1 res s)).
    { intros res Q s' K' T'. eapply IHl; eauto. lia. }
    assert (Hr' : forall res, res = 0 \/ res = 1 \/ res = 2 -> forall s, store_ok s -> tree_below (next s) r -> step r res s (Load load_left_right fuel m p2 res s)).
    { intros res Q s' K' T'. eapply IHr; eauto. lia. }
    clear IHl IHr Rl Rr.
    destruct (load2_ok op l r s _ _ K Tb (Hl 2 ltac:(auto)) (Hr' 2 ltac:(auto))) as (wl & wr & s2 & Bt & Eq2).
    assert (W : word_below (next s2) wl /\ word_below (next s2) wr) by (destruct Bt as (_ & W1 & W2 & _); auto). destruct W as [W1 W2].
    cbn [Load]. rewrite R0, R1, R2.
    destruct (bop_cases op Bo) as [E|[E|[E|[E|[E|[E|[E|E]]]]]]]; subst op; destruct Hr as [->|[->| ->]];
    cbn [NOT EQUIV NEQUIV IMPLY NIMPLY AND NAND OR NOR EQ_F LTE_F ZERO ONE Z.eqb Z.leb Z.compare Pos.eqb Pos.compare Pos.compare_cont andb Z.sub Z.add Z.opp Z.pos_sub Pos.pred_double];
    try (rewrite Eq2);
    first [ eapply (seq_ok _ l r s _ _ 0 0); [auto|auto|auto|exact K|exact Tb|apply Hl; auto|apply Hr'; auto|bop_iff]
          | eapply (seq_ok _ l r s _ _ 0 1); [auto|auto|auto|exact K|exact Tb|apply Hl; auto|apply Hr'; auto|bop_iff]
          | eapply (seq_ok _ l r s _ _ 1 0); [auto|auto|auto|exact K|exact Tb|apply Hl; auto|apply Hr'; auto|bop_iff]
          | eapply (seq_ok _ l r s _ _ 1 1); [auto|auto|auto|exact K|exact Tb|apply Hl; auto|apply Hr'; auto|bop_iff]
          | eapply (fin_into _ l r s s2 wl wr (fun b => _ wl wr b)); [exact Bt|exact Tb|cbn [wp]; auto|bop_iff]
          | eexists; eexists; split; [reflexivity|]; eapply (fin_post _ l r s s2 wl wr); [exact Bt|auto|exact Tb|cbn [wp]; auto|bop_iff] ].
  - cbn [rep] in Rp. destruct Rp as (_ & _ & R0 & R1 & R2). cbn [Load]. rewrite R0, R1, R2.
    assert (Tl : term_below (next s) le) by (apply Tb; cbn; auto). assert (Tr : term_below (next s) re) by (apply Tb; cbn; auto).
    cbn [okt] in Ok. unfold is_ncop in Ok.
    destruct Ok as [E|[E|[E|[E|[E|[E|[E|E]]]]]]]; subst n; destruct Hr as [->|[->| ->]];
    cbn [NOT EQUIV NEQUIV IMPLY NIMPLY AND NAND OR NOR EQ NEQ LT LTE EQ_F LTE_F ZERO ONE Z.eqb Z.leb Z.compare Pos.eqb Pos.compare Pos.compare_cont andb Z.sub Z.add Z.opp Z.pos_sub Pos.pred_double Pos.add Pos.succ Z.succ_double Z.pred_double Z.double];
    first [ apply fin_post1; [auto|auto|cbn [wp]; auto|];
            intros a _; cbn [FdBool_Spec.holds FdBool_Proofs.tval cmpf Z.eqb Pos.eqb];
            rewrite ?negb_true_iff, ?negb_false_iff, ?Z.eqb_eq, ?Z.eqb_neq, ?Z.ltb_lt, ?Z.ltb_ge, ?Z.leb_le, ?Z.leb_gt; lia
          | cbn [new_bool]; eexists; eexists; split; [reflexivity|];
            first [apply (truth_eq _ ltac:(auto)); auto|apply (truth_neq _ ltac:(auto)); auto|apply (truth_lt _ ltac:(auto)); auto|apply (truth_lte _ ltac:(auto)); auto] ].
Qed.

(** ** The whole *)
Lemma check_sat a l : forall s, sat a (check_vars l s) <->
  sat a s /\ forall v fd, In (v, fd) l -> if fd : bool then 0 <= a v else bit (a v).
Proof.
  induction l as [|[v fd] l IH]; intros s.
  - cbn. split; [intros S0; split; [auto|]; intros v fd []|tauto].
  - change (check_vars ((v, fd) :: l) s) with (check_vars l (post (if fd then CFd (WVar v) else CBool (WVar v)) s)).
    rewrite IH. split.
    + intros [S0 Q]. split; [intros k J; apply S0; now right|]. intros w fd' [J|J]; [|now apply Q]. injection J as <- <-.
      specialize (S0 _ (or_introl eq_refl)). destruct fd; exact S0.
    + intros [S0 Q]. split; [|intros w fd' J; apply Q; now right]. intros k [<-|J]; [|now apply S0].
      specialize (Q v fd (or_introl eq_refl)). destruct fd; exact Q.
Qed.
Lemma check_ok l : forall s, store_ok s -> (forall v fd, In (v, fd) l -> (v < next s)%nat) ->
  store_ok (check_vars l s) /\ next (check_vars l s) = next s.
Proof.
  induction l as [|[v fd] l IH]; intros s K B; [auto|].
  change (check_vars ((v, fd) :: l) s) with (check_vars l (post (if fd then CFd (WVar v) else CBool (WVar v)) s)).
  apply (IH (post _ s)).
  - intros k [<-|J]; [|exact (K k J)]. apply wp_below. specialize (B v fd (or_introl eq_refl)). destruct fd; exact B.
  - intros w fd' J. apply (B w fd'). now right.
Qed.

Definition natural (a : asg) (e : term) : Prop := forall t v, In t (arith_terms e) -> In v (unbound t) -> 0 <= a v.
Theorem meta_ok f n op le re s : nth_error bool_tbl op = Some (f, n) -> store_ok s ->
  let e := TStc f (firstn n [le; re]) in exp_below value (next s) e ->
  exists N, forall fuel, (N <= fuel)%nat ->
  match Fd_Bool_Meta_3 load_left_right fuel le re op s with
  | Ret s' => ext s s' (fun a => booleans a e /\ natural a e /\ truth value a e = Some true /\ forall t, In t (arith_terms e) -> defined a t) /\
              (forall a, sat a s' -> booleans a e /\ natural a e /\ forall b, truth value a e = Some b -> b = true)
  | TypeErr => ~ proper e | Resource => True | UB | NoFuel => False
  end.
Proof.
  intros Eop K e [Tv Tt]. unfold Fd_Bool_Meta_3. rewrite Eop. fold e.
  set (x0 := St (fun _ => None) 0 []).
  assert (B0 : bnd x0) by (unfold bnd, x0, VARS_STACK_SIZE; cbn; lia).
  destruct (simplify_ok value e 1 x0 (or_introl eq_refl) (Z.le_refl 0) B0) as [R Cv].
  destruct (Simplify 1 e x0) as [[p x]| | | |]; cbn [runs_to bind] in *; try contradiction;
    [|exists 0%nat; intros; exact R|exists 0%nat; intros; exact Logic.I].
  specialize (Cv p x eq_refl). destruct R as (t & ws & _ & _ & _ & Rp & (Sh & M & Vt & Wt) & Ew & Vs).
  rewrite app_nil_r in Ew. subst ws.
  assert (Tb : tree_below (next s) t) by (split; [intros v J; apply Tv, Vt, J|intros y J; apply Tt, Wt, J]).
  assert (Bt : forall a, booleans a e -> bits a t) by (intros a Q v J; apply Q, Vt, J).
  assert (Vb : forall v fd, In (v, fd) (vars x) -> (v < next s)%nat).
  { intros v [] J; [destruct (proj2 Vs v J) as (y & Jy & Jv); apply (Tt y Jy); exact Jv|apply Tv, (proj1 Vs v J)]. }
  assert (St1 : exists N, forall fuel, (N <= fuel)%nat -> exists w s1, Load load_left_right fuel (stack x) p 1 s = Ret (w, s1) /\ ext s s1 (Qt t 1) /\
    (forall a, sat a s1 -> bits a t -> tval a t = true)).
  { destruct (konst e) as [b|]; cbn [option_map shape] in Sh.
    - exists 1%nat. intros fuel Lf. destruct fuel as [|fuel]; [lia|]. subst t. cbn [rep] in Rp. destruct Rp as [_ Rp]. cbn [Load]. rewrite Rp.
      destruct b; cbn [xorb negb Z.eqb Z.b2z].
      + exists None, s. split; [reflexivity|]. split; [now apply ext_refl|]. reflexivity.
      + exists None, (post (CInt 0 (WInt 1)) s). split; [reflexivity|]. split.
        * apply ext_post; [auto|intros a b _ Q; exact Q|]. intros a _ (_ & _ & [Q|Q]); discriminate.
        * intros a Sa _. specialize (Sa _ (or_introl eq_refl)). discriminate.
    - exists (depth t). intros fuel Lf.
      destruct (Load_ok (stack x) t Sh fuel p 0 (sp x) 1 s Lf Rp ltac:(auto) K Tb) as (w & s1 & E & Ex & G1).
      exists w, s1. split; [exact E|]. split; [exact Ex|]. destruct w; [destruct G1; lia|]. exact (proj2 G1). }
  destruct St1 as (N & St1). exists N. intros fuel Lf. destruct (St1 fuel Lf) as (w & s1 & -> & Ex & G1). cbn [bind].
  pose proof Ex as (L1 & K1 & M1 & X1).
  destruct (check_ok (vars x) s1 K1) as [K2 N2]; [intros v fd J; specialize (Vb v fd J); lia|].
  assert (Sn : forall a, sat a (check_vars (vars x) s1) -> booleans a e /\ natural a e).
  { intros a Sa. apply check_sat in Sa as [_ Q]. split.
    - intros v J. apply (Q v false). now apply Cv.
    - intros y v J Jv. apply (Q v true). apply Cv. exists y. auto. }
  split.
  - split; [rewrite N2; exact L1|]. split; [exact K2|]. split.
    + intros a Sa. apply check_sat in Sa as [Sa _]. auto.
    + intros a Sa (Ba & Na & Ta & Da). destruct (X1 a Sa) as (a' & Ag & Sa').
      { split; [auto|]. split; [intros y J; apply Da, Wt, J|]. right. apply (M a true Ta). }
      exists a'. split; [auto|]. apply check_sat. split; [auto|]. intros v fd J. rewrite <- (Ag v (Vb v fd J)).
      destruct fd; [destruct (proj2 Vs v J) as (y & Jy & Jv); now apply (Na y v)|apply Ba, (proj1 Vs v J)].
  - intros a Sa. destruct (Sn a Sa) as [Ba Na]. split; [auto|]. split; [auto|]. intros b Tb0.
    apply check_sat in Sa as [Sa _]. pose proof (M a b Tb0) as Q. cbn in Q. rewrite (G1 a Sa (Bt a Ba)) in Q. destruct b; auto.
Qed.
End L.

Lemma truth_proper value a e : proper e -> exists b, truth value a e = Some b.
Proof.
  induction e as [v|v|n| | |f l IH] using term_ind'; cbn [proper truth]; eauto; try tauto.
  - intros [->| ->]; cbn; eauto.
  - destruct l as [|x [|y [|z l]]]; try tauto.
    + intros [-> P]. inversion IH as [|? ? Ix _]. destruct (Ix P) as [b ->]. cbn. eauto.
    + inversion IH as [|? ? Ix IH']. inversion IH' as [|? ? Iy _]. intros [Q|(Q & Px & Py)].
      * assert (X : forall x y, exists b, compare f x y = Some b).
        { unfold is_compare, compare in Q. intros u w. unfold compare.
          repeat match goal with |- context [if ?c then _ else _] => destruct c; [eauto|] end. discriminate. }
        destruct (X (value a x) (value a y)) as [b ->]. eauto.
      * destruct (compare f (value a x) (value a y)) as [b|]; [eauto|]. destruct (Ix Px) as [b1 ->]. destruct (Iy Py) as [b2 ->].
        unfold binary in *. repeat match goal with |- context [if ?c then _ else _] => destruct c; [eauto|] end. tauto.
Qed.
(** integers that an int holds *)
Fixpoint fits (e : term) : Prop :=
  match e with
  | TInt n => - 2 ^ 31 <= n < 2 ^ 31
  | TStc _ [x] => fits x
  | TStc _ [x; y] => fits x /\ fits y
  | _ => True
  end.
Lemma accepted e : fits e -> forall sign s p s', Simplify sign e s = Ret (p, s') -> proper e.
Proof.
  induction e as [v|v|n| | |f l IH] using term_ind'; intros F sign s p s' Q; cbn [proper]; auto.
  - cbn [Simplify] in Q. destruct (BOOL_STACK_SIZE - 5 <? sp s); [discriminate|].
    destruct (Z.ltb_spec 1 (to_int n mod 2 ^ 32)) as [L|L]; [discriminate|]. cbn [fits] in F. apply to_int_bit in L. revert L. unfold to_int.
    destruct (Z.ltb_spec n 0).
    + replace (n mod 2 ^ 32) with (n + 2 ^ 32) by (apply Z.mod_unique with (-1); lia). destruct (Z.ltb_spec (n + 2 ^ 32) (2 ^ 31)); lia.
    + rewrite Z.mod_small by lia. destruct (Z.ltb_spec n (2 ^ 31)); lia.
  - cbn [Simplify] in Q. destruct (BOOL_STACK_SIZE - 5 <? sp s); discriminate.
  - cbn [Simplify] in Q. destruct (BOOL_STACK_SIZE - 5 <? sp s); discriminate.
  - destruct l as [|x [|y [|z l]]].
    + cbn [Simplify List.length] in Q. destruct (BOOL_STACK_SIZE - 5 <? sp s); [discriminate|]. destruct (find_op (f, 0%nat)); discriminate.
    + cbn [Simplify List.length] in Q. destruct (BOOL_STACK_SIZE - 5 <? sp s); [discriminate|].
      destruct (find_op (f, 1%nat)) as [op|] eqn:Fo; [|discriminate].
      destruct (find_some _ _ _ Fo) as [(_ & -> & ->)|(C & _)]; [|discriminate]. cbn in Q. split; [reflexivity|].
      inversion IH as [|? ? Ix _]. eapply Ix; [exact F|exact Q].
    + rewrite Simplify_2 in Q. destruct (BOOL_STACK_SIZE - 5 <? sp s); [discriminate|].
      destruct (find_op (f, 2%nat)) as [op|] eqn:Fo; [|discriminate]. inversion IH as [|? ? Ix IH']. inversion IH' as [|? ? Iy _]. subst.
      destruct F as [Fx Fy]. destruct (find_some _ _ _ Fo) as [(C & _)|(_ & [J|J])]; [discriminate| |].
      * destruct (bins_bop f op J) as (Bo & Ic & Bf & Cf). right. rewrite Bf. split; [discriminate|].
        cbv zeta in Q. rewrite bop_neg in Q by (destruct (sign =? 1); [auto|apply flip_bop; auto]).
        unfold store_at in Q. destruct (write (sp s) _ _) as [s1| | | |]; try discriminate. cbn [bind] in Q.
        destruct (Simplify 1 x s1) as [[p1 s2]| | | |] eqn:E1; try discriminate. cbn [bind] in Q.
        destruct (write (sp s + 1) _ s2) as [s3| | | |]; try discriminate. cbn [bind] in Q.
        destruct (Simplify 1 y s3) as [[p2 s4]| | | |] eqn:E2; try discriminate.
        split; [eapply Ix|eapply Iy]; eauto.
      * left. now destruct (cmps_cop f op J) as (_ & -> & _).
    + cbn [Simplify List.length] in Q. destruct (BOOL_STACK_SIZE - 5 <? sp s); [discriminate|].
      destruct (find_op (f, S (S (S (List.length l))))) as [op|] eqn:Fo; [|discriminate].
      destruct (find_some _ _ _ Fo) as [(C & _)|(C & _)]; discriminate.
Qed.
