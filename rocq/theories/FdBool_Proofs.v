(** Simplify: the tree built in the stack and its truth value. *)
Require Import ZArith List Bool String Lia.
Require Import Verif.FdBool_Model Verif.FdBool_Spec.
Import ListNotations.
Open Scope Z_scope.

(** the trees in the stack *)
Inductive nt : Type := NVar (v : nat) | NNot (v : nat) | NCst (b : bool) | NOp (op : Z) (l r : nt) | NCmp (n : Z) (le re : term).
Definition bf (op : Z) (a b : bool) : bool :=
  match op with 1 => Bool.eqb a b | 2 => xorb a b | 3 => implb a b | 4 => negb (implb a b) | 5 => a && b | 6 => negb (a && b)
           | 7 => a || b | 8 => negb (a || b) | _ => false end.
Definition cmpf (op : Z) (x y : Z) : bool :=
  match op with 9 | 15 => x =? y | 10 | 16 => negb (x =? y) | 11 | 17 => x <? y | 12 | 18 => y <=? x | 13 | 19 => y <? x
           | 14 | 20 => x <=? y | _ => false end.
Definition is_bop (op : Z) : Prop := 1 <= op <= 8.
Definition is_cop (n : Z) : Prop := 9 <= n <= 20.
Definition is_ncop (n : Z) : Prop := n = 9 \/ n = 10 \/ n = 11 \/ n = 14 \/ n = 15 \/ n = 16 \/ n = 17 \/ n = 20.

Fixpoint rep (m : mem) (lo hi p : Z) (t : nt) : Prop :=
  match t with
  | NVar v => lo <= p < hi /\ m p = Some (Wd (TRef v))
  | NNot v => lo <= p /\ p + 1 < hi /\ m p = Some (Op NOT) /\ m (p + 1) = Some (Wd (TRef v))
  | NCst b => lo <= p < hi /\ m p = Some (Op (ZERO + Z.b2z b))
  | NCmp n le re => lo <= p /\ p + 2 < hi /\ m p = Some (Op n) /\ m (p + 1) = Some (Wd le) /\ m (p + 2) = Some (Wd re)
  | NOp op l r => lo <= p /\ p + 2 < hi /\ m p = Some (Op op) /\
    exists p1 p2, m (p + 1) = Some (Ptr p1) /\ m (p + 2) = Some (Ptr p2) /\ rep m lo hi p1 l /\ rep m lo hi p2 r
  end.
Definition head (t : nt) : cell :=
  match t with NVar v => Wd (TRef v) | NNot _ => Op NOT | NCst b => Op (ZERO + Z.b2z b) | NOp op _ _ => Op op | NCmp n _ _ => Op n end.
Fixpoint okt (t : nt) : Prop :=
  match t with NVar _ | NNot _ => True | NCst _ => False | NOp op l r => is_bop op /\ okt l /\ okt r | NCmp n _ _ => is_ncop n end.
Fixpoint tvars (t : nt) : list nat :=
  match t with NVar v | NNot v => [v] | NOp _ l r => tvars l ++ tvars r | _ => [] end.
Fixpoint tterms (t : nt) : list term :=
  match t with NOp _ l r => tterms l ++ tterms r | NCmp _ l r => [l; r] | _ => [] end.

Lemma rep_frame m m' lo hi lo' hi' t : forall p, rep m lo hi p t -> lo' <= lo -> hi <= hi' ->
  (forall q, lo <= q < hi -> m' q = m q) -> rep m' lo' hi' p t.
Proof.
  induction t as [v|v|b|op l IHl r IHr|n le re]; cbn [rep]; intros p Rp L Hh A.
  - destruct Rp as [Q E]. split; [lia|]. rewrite A; [auto|lia].
  - destruct Rp as (Q1 & Q2 & E1 & E2). repeat split; try lia; rewrite A; auto; lia.
  - destruct Rp as [Q E]. split; [lia|]. rewrite A; [auto|lia].
  - destruct Rp as (Q1 & Q2 & E & p1 & p2 & E1 & E2 & R1 & R2). repeat split; try lia; [rewrite A; auto; lia|].
    exists p1, p2. rewrite !A by lia. repeat split; auto.
  - destruct Rp as (Q1 & Q2 & E1 & E2 & E3). repeat split; try lia; rewrite A; auto; lia.
Qed.
Lemma rep_head m lo hi p t : rep m lo hi p t -> m p = Some (head t).
Proof. destruct t; cbn [rep head]; intuition. Qed.
Lemma rep_pos m lo hi p t : rep m lo hi p t -> lo <= p < hi.
Proof. destruct t; cbn [rep]; intuition lia. Qed.

(** ** The table of names *)
Lemma same_eq a b : same a b = true -> a = b.
Proof.
  destruct a as [f n], b as [g k]. unfold same. cbn [fst snd]. intros Q. apply andb_true_iff in Q as [A B].
  apply String.eqb_eq in A. apply Nat.eqb_eq in B. now subst.
Qed.
Definition bins : list (string * Z) :=
  [("##", 2); ("#<=>", 1); ("#\<=>", 2); ("#==>", 3); ("#\==>", 4); ("#/\", 5); ("#\/\", 6); ("#\/", 7); ("#\\/", 8)]%string.
Definition cmps : list (string * Z) :=
  [("#=", 9); ("#\=", 10); ("#<", 11); ("#>=", 12); ("#>", 13); ("#=<", 14);
   ("#=#", 15); ("#\=#", 16); ("#<#", 17); ("#>=#", 18); ("#>#", 19); ("#=<#", 20)]%string.
Lemma find_some f n op : find_op (f, n) = Some op ->
  (n = 1%nat /\ f = "#\"%string /\ op = 0) \/ (n = 2%nat /\ (In (f, op) bins \/ In (f, op) cmps)).
Proof.
  unfold find_op, bool_tbl, bool_xor. cbn [index].
  repeat match goal with
  | |- context [same ?g (f, n)] =>
    destruct (same g (f, n)) eqn:?E;
    [ intros Q; injection Q as <-; match goal with W : same g (f, n) = true |- _ => apply same_eq in W; injection W as <- <- end;
      first [left; repeat split; reflexivity
            |right; split; [reflexivity|first [left; cbn; tauto|right; cbn; tauto]]] |]
  end. discriminate.
Qed.
Lemma find_in f op : In (f, op) (bins ++ cmps) -> find_op (f, 2%nat) = Some op.
Proof.
  cbn [bins cmps app In]. intros Q.
  repeat (destruct Q as [Q|Q]; [injection Q as <- <-; reflexivity|]). destruct Q.
Qed.
Lemma bins_bop f op : In (f, op) bins -> is_bop op /\ is_compare f = false /\
  (forall a b, binary f a b = Some (bf op a b)) /\ (forall x y, compare f x y = None).
Proof.
  cbn [bins In]. intros Q.
  repeat (destruct Q as [Q|Q]; [injection Q as <- <-; unfold is_bop; repeat split; try lia; reflexivity|]). destruct Q.
Qed.
Lemma cmps_cop f op : In (f, op) cmps -> is_cop op /\ is_compare f = true /\ (forall x y, compare f x y = Some (cmpf op x y)).
Proof.
  cbn [cmps In]. intros Q.
  repeat (destruct Q as [Q|Q]; [injection Q as <- <-; unfold is_cop; repeat split; try lia; reflexivity|]). destruct Q.
Qed.
Lemma find_none f : find_op (f, 2%nat) = None -> is_compare f = false /\ binary f true true = None.
Proof.
  intros N. assert (X : forall x, In x (bins ++ cmps) -> String.eqb f (fst x) = false).
  { intros [g op] J. cbn [fst]. apply find_in in J. destruct (String.eqb_spec f g) as [->|]; [congruence|reflexivity]. }
  unfold is_compare, compare, binary.
  repeat match goal with
  | |- context [String.eqb f ?g] =>
    let K := fresh in assert (K : String.eqb f g = false)
      by (eapply (X (g, _)); cbn [bins cmps app In]; repeat (first [left; reflexivity|right])); rewrite K; clear K
  end. split; reflexivity.
Qed.
Lemma bop_cases op : is_bop op -> op = 1 \/ op = 2 \/ op = 3 \/ op = 4 \/ op = 5 \/ op = 6 \/ op = 7 \/ op = 8.
Proof. unfold is_bop. lia. Qed.

Section S.
Variable value : asg -> term -> Z.
Fixpoint tval (a : asg) (t : nt) : bool :=
  match t with
  | NVar v => a v =? 1 | NNot v => negb (a v =? 1) | NCst b => b
  | NOp op l r => bf op (tval a l) (tval a r)
  | NCmp n le re => cmpf n (value a le) (value a re)
  end.

(** constant folding *)
Definition fold2 (op : Z) (c d : option bool) : option bool :=
  match c, d with
  | Some x, Some y => Some (bf op x y)
  | Some x, None => if Bool.eqb (bf op x true) (bf op x false) then Some (bf op x true) else None
  | None, Some y => if Bool.eqb (bf op true y) (bf op false y) then Some (bf op true y) else None
  | None, None => None
  end.
Definition flip (op : Z) : Z := if op mod 2 =? EQ mod 2 then op + 1 else op - 1.
Fixpoint konst (e : term) : option bool :=
  match e with
  | TInt k => Some (to_int k =? 1)
  | TStc f [x] => option_map negb (konst x)
  | TStc f [x; y] => match find_op (f, 2%nat) with
                     | Some op => if op <=? 8 then fold2 op (konst x) (konst y) else None | None => None end
  | _ => None
  end.
Definition shape (k : option bool) (t : nt) : Prop := match k with Some b => t = NCst b | None => okt t end.

Definition bnd (s : st) : Prop := 2 * Z.of_nat (List.length (vars s)) <= VARS_STACK_SIZE.
Definition VS (vb vf : nat -> Prop) (ws : list (nat * bool)) : Prop :=
  (forall v, In (v, false) ws -> vb v) /\ (forall v, In (v, true) ws -> vf v).
Definition runs_to (T : Prop) (lo : Z) (s : st) (G : nt -> Prop) (vb vf : nat -> Prop) (r : res (Z * st)) : Prop :=
  match r with
  | Ret (p, s') => exists t ws, lo <= sp s' /\ bnd s' /\ (forall q, q < lo -> stack s' q = stack s q) /\
                   rep (stack s') lo (sp s') p t /\ G t /\ vars s' = ws ++ vars s /\ VS vb vf ws
  | TypeErr => T | Resource => True | UB | NoFuel => False
  end.
Lemma VS_nil vb vf : VS vb vf [].
Proof. split; intros v []. Qed.
Lemma VS_app vb vf a b : VS vb vf a -> VS vb vf b -> VS vb vf (a ++ b).
Proof. intros [A B] [C D]. split; intros v J; apply in_app_or in J as [J|J]; auto. Qed.
Lemma VS_imp (vb vf vb' vf' : nat -> Prop) a : VS vb vf a -> (forall v, vb v -> vb' v) -> (forall v, vf v -> vf' v) -> VS vb' vf' a.
Proof. intros [A B] C D. split; auto. Qed.

Lemma upd_same m p x : upd m p x p = Some x.
Proof. unfold upd. now rewrite Z.eqb_refl. Qed.
Lemma upd_other m p x q : q <> p -> upd m p x q = m q.
Proof. unfold upd. intros N. destruct (Z.eqb_spec q p); congruence. Qed.
Lemma write_ok p x s : 0 <= p < BOOL_STACK_SIZE -> write p x s = Ret (St (upd (stack s) p x) (sp s) (vars s)).
Proof. intros B. unfold write. rewrite (proj2 (Z.leb_le 0 p)), (proj2 (Z.ltb_lt p BOOL_STACK_SIZE)) by lia. reflexivity. Qed.
Lemma push_ok x s : 0 <= sp s < BOOL_STACK_SIZE -> push x s = Ret (St (upd (stack s) (sp s) x) (sp s + 1) (vars s)).
Proof. intros B. unfold push. rewrite write_ok by auto. reflexivity. Qed.
Lemma push_var_ok v fd s : bnd s -> push_var v fd s = Resource \/
  (push_var v fd s = Ret (St (stack s) (sp s) ((v, fd) :: vars s)) /\ bnd (St (stack s) (sp s) ((v, fd) :: vars s))).
Proof.
  unfold bnd, push_var. cbn [vars List.length]. rewrite Nat2Z.inj_succ. intros B. unfold VARS_STACK_SIZE in *.
  destruct (Z.eqb_spec (2 * Z.of_nat (List.length (vars s))) 100000) as [E|E]; [now left|right].
  destruct (Z.ltb_spec 100000 (2 * Z.of_nat (List.length (vars s)) + 2)) as [L|L]; [lia|]. split; [reflexivity|lia].
Qed.

Lemma head_okt t : okt t -> is (head t) ZERO = false /\ is (head t) ONE = false /\
  (is (head t) NOT = true -> exists v, t = NNot v).
Proof.
  destruct t as [v|v|b|o l r|n l r]; cbn [okt head is].
  - repeat split; discriminate.
  - repeat split. eauto.
  - tauto.
  - intros (B & _). unfold is_bop, ZERO, ONE, NOT in *. repeat split; try (apply Z.eqb_neq; lia).
    intros Q. apply Z.eqb_eq in Q. lia.
  - intros B. unfold is_ncop, ZERO, ONE, NOT in *. repeat split; try (apply Z.eqb_neq; lia).
    intros Q. apply Z.eqb_eq in Q. lia.
Qed.
Lemma rep_not m lo hi p v : rep m lo hi p (NNot v) -> rep m lo hi (p + 1) (NVar v).
Proof. cbn [rep]. intros (A & B & C & D). split; [lia|auto]. Qed.
(** ** The switch *)
Section Switch.
Variables (T : Prop) (op exp sp1 : Z) (k1 k2 : option bool) (t1 t2 : nt) (p1 p2 : Z)
  (nl nr : st -> res (Z * st)) (s : st) (vb vf : nat -> Prop).
(** what a tree is allowed to mention *)
Variables (tv1 : nat -> Prop) (tt1 : term -> Prop).
Variable F1 F2 : asg -> bool -> Prop.
Definition means (F : asg -> bool -> Prop) (ng : bool) (t : nt) : Prop :=
  (forall a b, F a b -> tval a t = xorb ng b) /\ (forall v, In v (tvars t) -> tv1 v) /\ (forall x, In x (tterms t) -> tt1 x).
Definition G (F : asg -> bool -> Prop) (k : option bool) (ng : bool) (t : nt) : Prop :=
  shape (option_map (xorb ng) k) t /\ means F ng t.
Definition F12 (a : asg) (b : bool) : Prop := exists b1 b2, F1 a b1 /\ F2 a b2 /\ b = bf op b1 b2.


Hypothesis Bop : is_bop op.
Hypothesis Be0 : 0 <= exp.
Hypothesis Be : exp <= BOOL_STACK_SIZE - 5.
Hypothesis L1 : exp + 3 <= sp1.
Hypothesis L2 : sp1 <= sp s.
Hypothesis Bn : bnd s.
Hypothesis Eop : stack s exp = Some (Op op).
Hypothesis E1 : stack s (exp + 1) = Some (Ptr p1).
Hypothesis E2 : stack s (exp + 2) = Some (Ptr p2).
Hypothesis R1 : rep (stack s) (exp + 3) sp1 p1 t1.
Hypothesis R2 : rep (stack s) sp1 (sp s) p2 t2.
Hypothesis Hnl : forall s0, 0 <= sp s0 -> bnd s0 -> runs_to T (sp s0) s0 (G F1 k1 true) vb vf (nl s0).
Hypothesis Hnr : forall s0, 0 <= sp s0 -> bnd s0 -> runs_to T (sp s0) s0 (G F2 k2 true) vb vf (nr s0).

Lemma sz_ok i : 0 <= i <= 2 -> 0 <= exp + i < BOOL_STACK_SIZE.
Proof. unfold BOOL_STACK_SIZE in *. lia. Qed.
Lemma leaf_r (GG : nt -> Prop) : GG t2 -> runs_to T exp s GG vb vf (ptr (exp + 2) s).
Proof.
  intros Q. unfold ptr, read. rewrite E2. cbn [bind runs_to]. exists t2, []. repeat split; auto; try lia; try (intros v []).
  eapply rep_frame; [exact R2|lia|lia|auto].
Qed.
Lemma leaf_l (GG : nt -> Prop) : GG t1 -> runs_to T exp s GG vb vf (ptr (exp + 1) (set_sp sp1 s)).
Proof.
  intros Q. unfold ptr, read. cbn [set_sp stack]. rewrite E1. cbn [bind runs_to sp vars stack]. exists t1, []. cbn [sp vars stack set_sp].
  repeat split; auto; try lia; try (intros v []). eapply rep_frame; [exact R1|lia|lia|auto].
Qed.
Lemma leaf_neg f (GG : nt -> Prop) FF kk :
  (forall s0, 0 <= sp s0 -> bnd s0 -> runs_to T (sp s0) s0 (G FF kk true) vb vf (f s0)) ->
  (forall t, G FF kk true t -> GG t) -> runs_to T exp s GG vb vf (f (set_sp exp s)).
Proof.
  intros Hf Q. specialize (Hf (set_sp exp s) Be0 Bn). unfold runs_to in *. destruct (f (set_sp exp s)) as [[p s']| | | |]; auto.
  destruct Hf as (t & ws & A1 & A2 & A3 & A4 & A5 & A6 & A7). exists t, ws. repeat split; auto; apply A7.
Qed.
Lemma leaf_const b (GG : nt -> Prop) : GG (NCst b) -> runs_to T exp s GG vb vf (const exp (ZERO + Z.b2z b) s).
Proof.
  intros Q. unfold const. rewrite push_ok by (cbn [set_sp sp]; rewrite <- (Z.add_0_r exp); apply sz_ok; lia).
  cbn [bind runs_to set_sp sp vars stack]. exists (NCst b), [].
  cbn [sp vars stack set_sp rep app].
  split; [lia|]. split; [exact Bn|]. split; [intros q Lq; apply upd_other; lia|].
  split; [split; [lia|apply upd_same]|]. auto using VS_nil.
Qed.
Lemma leaf_one (GG : nt -> Prop) : GG (NCst true) -> runs_to T exp s GG vb vf (const exp ONE s).
Proof. apply (leaf_const true). Qed.
Lemma leaf_zero (GG : nt -> Prop) : GG (NCst false) -> runs_to T exp s GG vb vf (const exp ZERO s).
Proof. apply (leaf_const false). Qed.
(** a node left at exp *)
Lemma leaf_node op' a b pa pb s' ws (GG : nt -> Prop) : GG (NOp op' a b) ->
  bnd s' -> exp + 3 <= sp s' -> (forall q, q < exp -> stack s' q = stack s q) ->
  stack s' exp = Some (Op op') -> stack s' (exp + 1) = Some (Ptr pa) -> stack s' (exp + 2) = Some (Ptr pb) ->
  rep (stack s') exp (sp s') pa a -> rep (stack s') exp (sp s') pb b -> vars s' = ws ++ vars s -> VS vb vf ws ->
  runs_to T exp s GG vb vf (Ret (exp, s')).
Proof.
  intros. cbn [runs_to]. exists (NOp op' a b), ws. repeat split; auto; try lia; try apply H9.
  cbn [rep]. repeat split; auto; try lia. exists pa, pb. auto.
Qed.

Ltac mm := cbn [stack sp vars set_sp bind]; repeat first [rewrite upd_same|rewrite upd_other by lia].
Ltac wr := rewrite write_ok by (first [apply sz_ok; lia|rewrite <- (Z.add_0_r exp); apply sz_ok; lia]); mm.
Ltac below := intros; mm; auto.
Ltac frame R := eapply rep_frame; [exact R|cbn [sp]; lia|cbn [sp]; lia|intros; mm; auto].

Lemma node_same (GG : nt -> Prop) : GG (NOp op t1 t2) -> runs_to T exp s GG vb vf (Ret (exp, s)).
Proof.
  intros Q. eapply (leaf_node op t1 t2 p1 p2 s []); auto using VS_nil; try lia; [frame R1|frame R2].
Qed.
Lemma node_skip_l op' v (GG : nt -> Prop) : t1 = NNot v -> GG (NOp op' (NVar v) t2) ->
  runs_to T exp s GG vb vf (into exp op' s (skip (exp + 1))).
Proof.
  intros -> Q. pose proof (rep_not _ _ _ _ _ R1) as R1'. unfold into, skip, read. wr. rewrite E1. mm. wr.
  eapply (leaf_node op' (NVar v) t2 (p1 + 1) p2 _ []); mm; auto using VS_nil; try lia; try below; [frame R1'|frame R2].
Qed.
Lemma node_skip_r op' v (GG : nt -> Prop) : t2 = NNot v -> GG (NOp op' t1 (NVar v)) ->
  runs_to T exp s GG vb vf (into exp op' s (skip (exp + 2))).
Proof.
  intros -> Q. pose proof (rep_not _ _ _ _ _ R2) as R2'. unfold into, skip, read. wr. rewrite E2. mm. wr.
  eapply (leaf_node op' t1 (NVar v) p1 (p2 + 1) _ []); mm; auto using VS_nil; try lia; try below; [frame R1|frame R2'].
Qed.
Lemma node_swap_l op' v (GG : nt -> Prop) : t1 = NNot v -> GG (NOp op' t2 (NVar v)) ->
  runs_to T exp s GG vb vf (into exp op' s (fun s => do (p1, s) <- ptr (exp + 1) s; do (p2, s) <- ptr (exp + 2) s;
        do s <- write (exp + 1) (Ptr p2) s; write (exp + 2) (Ptr (p1 + 1)) s)).
Proof.
  intros -> Q. pose proof (rep_not _ _ _ _ _ R1) as R1'. unfold into, ptr, read. wr. rewrite E1. mm. rewrite E2. mm. wr. wr.
  eapply (leaf_node op' t2 (NVar v) p2 (p1 + 1) _ []); mm; auto using VS_nil; try lia; try below; [frame R2|frame R1'].
Qed.
Lemma node_swap_r op' v (GG : nt -> Prop) : t2 = NNot v -> GG (NOp op' (NVar v) t1) ->
  runs_to T exp s GG vb vf (into exp op' s (fun s => do (p1, s) <- ptr (exp + 1) s; do (p2, s) <- ptr (exp + 2) s;
        do s <- write (exp + 1) (Ptr (p2 + 1)) s; write (exp + 2) (Ptr p1) s)).
Proof.
  intros -> Q. pose proof (rep_not _ _ _ _ _ R2) as R2'. unfold into, ptr, read. wr. rewrite E1. mm. rewrite E2. mm. wr. wr.
  eapply (leaf_node op' (NVar v) t1 (p2 + 1) p1 _ []); mm; auto using VS_nil; try lia; try below; [frame R2'|frame R1].
Qed.
(** Simplify again, above [h]: the cells below are kept *)
Lemma again f FF kk s0 : (forall s0, 0 <= sp s0 -> bnd s0 -> runs_to T (sp s0) s0 (G FF kk true) vb vf (f s0)) ->
  exp + 3 <= sp s0 -> bnd s0 -> forall i, 1 <= i <= 2 -> forall (k : st -> res (Z * st)) (GG : nt -> Prop) (sb : st),
  (forall s' q t ws, G FF kk true t -> sp s0 <= sp s' -> bnd s' -> (forall x, x < sp s0 -> x <> exp + i -> stack s' x = stack s0 x) ->
     stack s' (exp + i) = Some (Ptr q) -> rep (stack s') (sp s0) (sp s') q t -> vars s' = ws ++ vars s0 -> VS vb vf ws ->
     runs_to T exp sb GG vb vf (k s')) ->
  runs_to T exp sb GG vb vf (do s <- store_at (exp + i) f s0; k s).
Proof.
  intros Hf L B i Hi k GG sb Q. unfold store_at. assert (L0 : 0 <= sp s0) by lia.
  specialize (Hf s0 L0 B). destruct (f s0) as [[q s']| | | |]; cbn [runs_to bind] in *; auto.
  destruct Hf as (t & ws & A1 & A2 & A3 & A4 & A5 & A6 & A7).
  rewrite write_ok by (apply sz_ok; lia). cbn [bind].
  apply (Q (St (upd (stack s') (exp + i) (Ptr q)) (sp s') (vars s')) q t ws); cbn [sp stack vars]; auto.
  - intros x X1 X2. rewrite upd_other by auto. apply A3. lia.
  - apply upd_same.
  - eapply rep_frame; [exact A4|lia|lia|]. intros x X. apply upd_other. lia.
Qed.
Lemma bind_bind {A B C} (o : res A) (f : A -> res B) (g : B -> res C) : bind (bind o f) g = bind o (fun x => bind (f x) g).
Proof. destruct o; reflexivity. Qed.
Lemma node_l_not v (GG : nt -> Prop) : t1 = NNot v -> (forall t, G F2 k2 true t -> GG (NOp op (NVar v) t)) ->
  runs_to T exp s GG vb vf (do s <- skip (exp + 1) s; do s <- store_at (exp + 2) nr (set_sp sp1 s); Ret (exp, s)).
Proof.
  intros -> Q. pose proof (rep_not _ _ _ _ _ R1) as R1'. unfold skip, read. rewrite E1. cbn [bind]. wr.
  apply (again nr F2 k2 _ Hnr); [cbn [sp set_sp]; lia|exact Bn|lia|].
  intros s' q t ws Gt A1 A2 A3 A4 A5 A6 A7. cbn [sp vars stack set_sp] in *.
  eapply (leaf_node op (NVar v) t (p1 + 1) q s' ws); auto; try lia.
  - intros x X. rewrite A3 by lia. mm. auto.
  - rewrite A3 by lia. mm. auto.
  - rewrite A3 by lia. mm. auto.
  - eapply rep_frame; [exact R1'|lia|lia|]. intros x X. rewrite A3 by lia. mm. auto.
  - eapply rep_frame; [exact A5|lia|lia|auto].
Qed.
Lemma node_r_not v (GG : nt -> Prop) : t2 = NNot v -> (forall t, G F1 k1 true t -> GG (NOp op t (NVar v))) ->
  runs_to T exp s GG vb vf (do s <- store_at (exp + 1) nl s; do s <- skip (exp + 2) s; Ret (exp, s)).
Proof.
  intros -> Q. pose proof (rep_not _ _ _ _ _ R2) as R2'.
  apply (again nl F1 k1 _ Hnl); [cbn [sp set_sp]; lia|exact Bn|lia|].
  intros s' q t ws Gt A1 A2 A3 A4 A5 A6 A7. unfold skip, read. rewrite A3, E2 by lia. cbn [bind]. wr.
  eapply (leaf_node op t (NVar v) q (p2 + 1) _ ws); mm; auto; try lia.
  - intros x X. mm. apply A3; lia.
  - rewrite A3 by lia. auto.
  - eapply rep_frame; [exact A5|cbn [sp]; lia|cbn [sp]; lia|]. intros x X. mm. auto.
  - eapply rep_frame; [exact R2'|cbn [sp]; lia|cbn [sp]; lia|]. intros x X. mm. apply A3; lia.
Qed.
Lemma node_imply_r_not v (GG : nt -> Prop) : t2 = NNot v -> (forall t, G F1 k1 true t -> GG (NOp op (NVar v) t)) ->
  runs_to T exp s GG vb vf (do (q, s) <- ptr (exp + 2) s; do s <- write (exp + 1) (Ptr (q + 1)) s;
      do s <- store_at (exp + 2) nl s; Ret (exp, s)).
Proof.
  intros -> Q. pose proof (rep_not _ _ _ _ _ R2) as R2'. unfold ptr, read. rewrite E2. cbn [bind]. wr.
  apply (again nl F1 k1 _ Hnl); [cbn [sp set_sp]; lia|exact Bn|lia|].
  intros s' q t ws Gt A1 A2 A3 A4 A5 A6 A7. cbn [sp vars stack set_sp] in *.
  eapply (leaf_node op (NVar v) t (p2 + 1) q s' ws); auto; try lia.
  - intros x X. rewrite A3 by lia. mm. auto.
  - rewrite A3 by lia. mm. auto.
  - rewrite A3 by lia. mm. auto.
  - eapply rep_frame; [exact R2'|lia|lia|]. intros x X. rewrite A3 by lia. mm. auto.
  - eapply rep_frame; [exact A5|lia|lia|auto].
Qed.
Lemma node_again_r op' (GG : nt -> Prop) : (forall t, G F2 k2 true t -> GG (NOp op' t1 t)) ->
  runs_to T exp s GG vb vf (into exp op' s (fun s => store_at (exp + 2) nr (set_sp sp1 s))).
Proof.
  intros Q. unfold into. wr.
  apply (again nr F2 k2 _ Hnr); [cbn [sp set_sp]; lia|exact Bn|lia|].
  intros s' q t ws Gt A1 A2 A3 A4 A5 A6 A7. cbn [sp vars stack set_sp] in *.
  eapply (leaf_node op' t1 t p1 q s' ws); auto; try lia.
  - intros x X. rewrite A3 by lia. mm. auto.
  - rewrite A3 by lia. mm. auto.
  - rewrite A3 by lia. mm. auto.
  - eapply rep_frame; [exact R1|lia|lia|]. intros x X. rewrite A3 by lia. mm. auto.
  - eapply rep_frame; [exact A5|lia|lia|auto].
Qed.
Lemma node_again_l op' (GG : nt -> Prop) : (forall t, G F1 k1 true t -> GG (NOp op' t t2)) ->
  runs_to T exp s GG vb vf (into exp op' s (store_at (exp + 1) nl)).
Proof.
  intros Q. unfold into. wr.
  apply (again nl F1 k1 _ Hnl); [cbn [sp set_sp]; lia|exact Bn|lia|].
  intros s' q t ws Gt A1 A2 A3 A4 A5 A6 A7. cbn [sp vars stack set_sp] in *.
  eapply (leaf_node op' t t2 q p2 s' ws); auto; try lia.
  - intros x X. rewrite A3 by lia. mm. auto.
  - rewrite A3 by lia. mm. auto.
  - rewrite A3 by lia. mm. auto.
  - eapply rep_frame; [exact A5|lia|lia|auto].
  - eapply rep_frame; [exact R2|lia|lia|]. intros x X. rewrite A3 by lia. mm. auto.
Qed.
End Switch.

Lemma cst_is b : is (head (NCst b)) ZERO = negb b /\ is (head (NCst b)) ONE = b /\ is (head (NCst b)) NOT = false.
Proof. destruct b; repeat split. Qed.

Lemma switch_ok T op exp sp1 k1 k2 t1 t2 p1 p2 nl nr s vb vf tv1 tt1 F1 F2 :
  is_bop op -> 0 <= exp -> exp <= BOOL_STACK_SIZE - 5 -> exp + 3 <= sp1 -> sp1 <= sp s -> bnd s ->
  stack s exp = Some (Op op) -> stack s (exp + 1) = Some (Ptr p1) -> stack s (exp + 2) = Some (Ptr p2) ->
  rep (stack s) (exp + 3) sp1 p1 t1 -> rep (stack s) sp1 (sp s) p2 t2 ->
  (forall s0, 0 <= sp s0 -> bnd s0 -> runs_to T (sp s0) s0 (G tv1 tt1 F1 k1 true) vb vf (nl s0)) ->
  (forall s0, 0 <= sp s0 -> bnd s0 -> runs_to T (sp s0) s0 (G tv1 tt1 F2 k2 true) vb vf (nr s0)) ->
  G tv1 tt1 F1 k1 false t1 -> G tv1 tt1 F2 k2 false t2 ->
  runs_to T exp s (G tv1 tt1 (F12 op F1 F2) (fold2 op k1 k2) false) vb vf (switch op exp sp1 (head t1) (head t2) nl nr s).
Proof.
  intros Bop Be0 Be L1 L2 Bn Eop E1 E2 R1 R2 Hnl Hnr [Sh1 [M1 [V1 W1]]] [Sh2 [M2 [V2 W2]]].
  Ltac vv := intros ? J; cbn [tvars tterms] in J; try rewrite in_app_iff in J;
    repeat match goal with W : In _ (_ ++ _) |- _ => rewrite in_app_iff in W end; cbn [In] in J;
    repeat match goal with W : _ \/ _ |- _ => destruct W end; try contradiction; subst;
    match goal with W : forall v, In v _ -> ?P v |- ?P _ => apply W; cbn [tvars tterms In]; tauto end.
  Ltac sem M1 M2 := intros ? ? (?b1 & ?b2 & ?f1 & ?f2 & ->); cbn [tval];
    repeat match goal with
    | F : ?FF ?a ?b, M : forall a b, ?FF a b -> _ |- _ =>
      let K := fresh "K" in pose proof (M a b F) as K; clear M; cbn [tval] in K
    end.
  Ltac bools := repeat match goal with
    | |- context [tval ?a ?t] => destruct (tval a t)
    | |- context [?x =? 1] => destruct (x =? 1)
    | W : context [tval ?a ?t] |- _ => destruct (tval a t)
    | W : context [?x =? 1] |- _ => destruct (x =? 1)
    end; repeat match goal with b : bool |- _ => destruct b end; cbn in *; congruence.
  Ltac nodes := first
    [ eapply leaf_r; try eassumption
    | eapply leaf_l; try eassumption
    | eapply leaf_one; try eassumption
    | eapply leaf_zero; try eassumption
    | eapply node_same; try eassumption
    | eapply node_skip_l; try eassumption; try reflexivity
    | eapply node_skip_r; try eassumption; try reflexivity
    | eapply node_swap_l; try eassumption; try reflexivity
    | eapply node_swap_r; try eassumption; try reflexivity
    | eapply node_l_not; try eassumption; try reflexivity
    | eapply node_r_not; try eassumption; try reflexivity
    | eapply node_imply_r_not; try eassumption; try reflexivity
    | eapply node_again_r; try eassumption
    | eapply node_again_l; try eassumption ].
  assert (C1 : (exists b, k1 = Some b /\ t1 = NCst b) \/ (k1 = None /\ okt t1)).
  { destruct k1 as [b|]; cbn [option_map shape] in Sh1; [left; exists b; destruct b; auto|right; auto]. }
  assert (C2 : (exists b, k2 = Some b /\ t2 = NCst b) \/ (k2 = None /\ okt t2)).
  { destruct k2 as [b|]; cbn [option_map shape] in Sh2; [left; exists b; destruct b; auto|right; auto]. }
  clear Sh1 Sh2.
  destruct (bop_cases op Bop) as [E|[E|[E|[E|[E|[E|[E|E]]]]]]]; subst op; unfold switch;
  cbn [Z.eqb Pos.eqb EQUIV NEQUIV IMPLY NIMPLY AND NAND OR NOR].
  all: destruct C1 as [([|] & -> & ->)|[-> O1]]; destruct C2 as [([|] & -> & ->)|[-> O2]];
    rewrite ?(proj1 (cst_is true)), ?(proj1 (proj2 (cst_is true))), ?(proj2 (proj2 (cst_is true))),
      ?(proj1 (cst_is false)), ?(proj1 (proj2 (cst_is false))), ?(proj2 (proj2 (cst_is false)));
    repeat match goal with
    | O : okt ?t |- context [is (head ?t) ZERO] => rewrite (proj1 (head_okt t O))
    | O : okt ?t |- context [is (head ?t) ONE] => rewrite (proj1 (proj2 (head_okt t O)))
    end; cbn [negb orb].
  all: repeat match goal with
    | O : okt ?t |- context [is (head ?t) NOT] =>
      let N := fresh in destruct (is (head t) NOT) eqn:N; [destruct (proj2 (proj2 (head_okt t O)) N) as [?v ->]|]
    | |- context [if IsVar ?x && negb (IsVar ?y) then _ else _] => destruct (IsVar x && negb (IsVar y))
    end.
  all: first [nodes | eapply (leaf_neg T exp s vb vf tv1 tt1 Be0 Bn _ _ _ _ Hnl) | eapply (leaf_neg T exp s vb vf tv1 tt1 Be0 Bn _ _ _ _ Hnr)].
  all: try (intros t [Sh [M [V W]]]).
  all: split; [try exact Sh; cbn in *; unfold is_bop, EQUIV, NIMPLY, IMPLY, AND, OR, NOR in *; intuition (try lia)|split; [sem M1 M2; bools|split; vv]].
Qed.


(** ** Terms *)
Lemma term_ind' (P : term -> Prop) : (forall v, P (TRef v)) -> (forall v, P (TFdv v)) -> (forall n, P (TInt n)) -> P TAtm -> P TOther ->
  (forall f l, Forall P l -> P (TStc f l)) -> forall t, P t.
Proof.
  intros A B C D E0 F. fix IH 1. intros [v|v|n| | |f l].
  1: apply A. 1: apply B. 1: apply C. 1: exact D. 1: exact E0.
  apply F. induction l as [|x l IHl]; constructor; auto.
Qed.
Definition vb (e : term) (v : nat) : Prop := In v (bool_vars e).
Definition vf (e : term) (v : nat) : Prop := exists t, In t (arith_terms e) /\ In v (unbound t).
Definition at_ (e : term) (t : term) : Prop := In t (arith_terms e).
Definition Fe (e : term) (a : asg) (b : bool) : Prop := truth value a e = Some b.
Definition covers (e : term) (l : list (nat * bool)) : Prop :=
  (forall v, vb e v -> In (v, false) l) /\ (forall v, vf e v -> In (v, true) l).

Lemma Add_ok e : forall s, bnd s ->
  match Add_Fd_Variables e s with
  | Ret s' => stack s' = stack s /\ sp s' = sp s /\ bnd s' /\ exists ws, vars s' = ws ++ vars s /\
              (forall v, ~ In (v, false) ws) /\ (forall v, In (v, true) ws <-> In v (unbound e))
  | Resource => True | _ => False
  end.
Proof.
  induction e as [v|v|n| | |f l IH] using term_ind'; intros s B; cbn [Add_Fd_Variables unbound].
  - destruct (push_var_ok v true s B) as [->|[-> B']]; [exact Logic.I|]. cbn [stack sp vars]. repeat split; auto.
    exists [(v, true)]. cbn. split; auto. split; [intros w [E|[]]; congruence|]. intros w. split; intros [E|[]]; left; congruence.
  - repeat split; auto. exists []. cbn. split; [|split]; auto. tauto.
  - repeat split; auto. exists []. cbn. split; [|split]; auto. tauto.
  - repeat split; auto. exists []. cbn. split; [|split]; auto. tauto.
  - repeat split; auto. exists []. cbn. split; [|split]; auto. tauto.
  - revert s B. induction IH as [|x l Hx Hl IHl]; intros s B.
    + repeat split; auto. exists []. cbn. split; [|split]; auto. tauto.
    + specialize (IHl s B).
      set (all := (fix all (l : list term) (s : st) {struct l} : res st :=
        match l with [] => Ret s | t :: l0 => do s0 <- all l0 s; Add_Fd_Variables t s0 end)) in *.
      change (all (x :: l) s) with (do s0 <- all l s; Add_Fd_Variables x s0).
      destruct (all l s) as [s'| | | |]; cbn [bind]; auto.
      destruct IHl as (A1 & A2 & A3 & ws & A4 & A5 & A6). specialize (Hx s' A3).
      destruct (Add_Fd_Variables x s') as [s2| | | |]; auto.
      destruct Hx as (C1 & C2 & C3 & ws' & C4 & C5 & C6). repeat split; try congruence.
      exists (ws' ++ ws). rewrite C4, A4. split; [now rewrite app_assoc|]. split.
      * intros v J. apply in_app_or in J as [J|J]; [now apply (C5 v)|now apply (A5 v)].
      * intros v. rewrite in_app_iff, C6, A6. rewrite in_app_iff. tauto.
Qed.

Lemma runs_imp (T T' : Prop) lo s (G0 G1 : nt -> Prop) (b0 f0 b1 f1 : nat -> Prop) r :
  runs_to T lo s G0 b0 f0 r -> (T -> T') -> (forall t, G0 t -> G1 t) -> (forall v, b0 v -> b1 v) -> (forall v, f0 v -> f1 v) ->
  runs_to T' lo s G1 b1 f1 r.
Proof.
  unfold runs_to. destruct r as [[p s']| | | |]; auto. intros (t & ws & A1 & A2 & A3 & A4 & A5 & A6 & A7) Q1 Q2 Q3 Q4.
  exists t, ws. repeat split; auto; [intros v J; apply Q3, (proj1 A7 v J)|intros v J; apply Q4, (proj2 A7 v J)].
Qed.
Lemma G_imp (tv : nat -> Prop) (tt : term -> Prop) (tv' : nat -> Prop) (tt' : term -> Prop) (F F' : asg -> bool -> Prop) k ng t : G tv tt F k ng t -> (forall v, tv v -> tv' v) -> (forall x, tt x -> tt' x) ->
  (forall a b, F' a b -> F a b) -> G tv' tt' F' k ng t.
Proof. intros [A [B [C D]]] Q1 Q2 Q3. repeat split; auto. Qed.

Lemma to_int_bit k : to_int k mod 2 ^ 32 <= 1 -> (to_int k = 0 \/ to_int k = 1).
Proof.
  unfold to_int. pose proof (Z.mod_pos_bound k (2 ^ 32) ltac:(lia)). set (v := k mod 2 ^ 32) in *.
  destruct (Z.ltb_spec v (2 ^ 31)).
  - rewrite Z.mod_small by lia. lia.
  - replace (v - 2 ^ 32) with (v + (-1) * 2 ^ 32) by lia. rewrite Z.mod_add by lia. rewrite Z.mod_small by lia. lia.
Qed.
Lemma to_int_small k : 0 <= k < 2 ^ 31 -> to_int k = k.
Proof. intros B. unfold to_int. rewrite Z.mod_small by lia. destruct (Z.ltb_spec k (2 ^ 31)); lia. Qed.
Lemma flip_bop op : is_bop op -> is_bop (flip op) /\ forall a b, bf (flip op) a b = negb (bf op a b).
Proof.
  intros B. destruct (bop_cases op B) as [E|[E|[E|[E|[E|[E|[E|E]]]]]]]; subst op; (split; [unfold is_bop, flip; cbn; lia|]);
  intros [] []; reflexivity.
Qed.
Lemma flip_cop op : is_cop op -> is_cop (flip op) /\ forall x y, cmpf (flip op) x y = negb (cmpf op x y).
Proof.
  intros B. assert (C : op = 9 \/ op = 10 \/ op = 11 \/ op = 12 \/ op = 13 \/ op = 14 \/ op = 15 \/ op = 16 \/ op = 17 \/ op = 18 \/ op = 19 \/ op = 20)
    by (unfold is_cop in B; lia).
  destruct C as [E|[E|[E|[E|[E|[E|[E|[E|[E|[E|[E|E]]]]]]]]]]]; subst op; (split; [unfold is_cop, flip; cbn; lia|]);
  intros x y; cbn; rewrite ?negb_involutive; auto; rewrite ?Z.leb_antisym, ?negb_involutive; auto.
Qed.
Lemma fold2_flip op c d : is_bop op -> fold2 (flip op) c d = option_map negb (fold2 op c d).
Proof.
  intros B. destruct (flip_bop op B) as [_ Q]. unfold fold2. destruct c as [x|], d as [y|]; cbn [option_map]; rewrite ?Q; auto.
  - destruct (bf op x true), (bf op x false); reflexivity.
  - destruct (bf op true y), (bf op false y); reflexivity.
Qed.

Lemma covers_app e l1 l : covers e l -> covers e (l1 ++ l).
Proof. intros [A B]. split; intros v J; apply in_or_app; right; auto. Qed.
Lemma runs_trans T lo s s6 ws (GG : nt -> Prop) b f r : runs_to T lo s6 GG b f r -> (forall q, q < lo -> stack s6 q = stack s q) ->
  vars s6 = ws ++ vars s -> VS b f ws -> runs_to T lo s GG b f r.
Proof.
  unfold runs_to. destruct r as [[p s']| | | |]; auto. intros (t & ws' & A1 & A2 & A3 & A4 & A5 & A6 & A7) Q1 Q2 Q3.
  exists t, (ws' ++ ws). split; [auto|]. split; [auto|]. split; [intros q L; rewrite A3, Q1; auto|].
  split; [auto|]. split; [auto|]. split; [now rewrite A6, Q2, app_assoc|]. now apply VS_app.
Qed.
Lemma Simplify_2 sign f le re s : Simplify sign (TStc f [le; re]) s =
  if BOOL_STACK_SIZE - 5 <? sp s then Resource else
  match find_op (f, 2%nat) with
  | None => TypeErr
  | Some op0 =>
        let exp := sp s in
        let op := if sign =? 1 then op0 else flip op0 in
        if (EQ <=? op) && (op <=? LTE_F) then
          do s <- Add_Fd_Variables le s; do s <- Add_Fd_Variables re s;
          let n := if (op =? GT) || (op =? GT_F) then op - 2 else if (op =? GTE) || (op =? GTE_F) then op + 2 else op in
          do s <- push (Op n) s;
          do s <- push (Wd (if n =? op then le else re)) s;
          do s <- push (Wd (if n =? op then re else le)) s; Ret (exp, s)
        else
          let s := set_sp (sp s + 3) s in
          do s <- write exp (Op op) s;
          do s <- store_at (exp + 1) (Simplify 1 le) s;
          let sp1 := sp s in
          do s <- store_at (exp + 2) (Simplify 1 re) s;
          do (p1, s) <- ptr (exp + 1) s; do (p2, s) <- ptr (exp + 2) s;
          do l <- read p1 s; do r <- read p2 s;
          switch op exp sp1 l r (Simplify (-1) le) (Simplify (-1) re) s
  end.
Proof. reflexivity. Qed.
Definition okr (e : term) (sign : Z) (s : st) (r : res (Z * st)) : Prop :=
  runs_to (~ proper e) (sp s) s (G (vb e) (at_ e) (Fe e) (konst e) (negb (sign =? 1))) (vb e) (vf e) r /\
  (forall p s', r = Ret (p, s') -> covers e (vars s')).
Definition ok (e : term) : Prop := forall sign s, (sign = 1 \/ sign = -1) -> 0 <= sp s -> bnd s -> okr e sign s (Simplify sign e s).

Lemma ok_var e v : e = TRef v \/ e = TFdv v -> ok e.
Proof.
  intros E sign s Sg P B.
  assert (X : Simplify sign e s = if BOOL_STACK_SIZE - 5 <? sp s then Resource else
    do s' <- push_var v false s;
    do s' <- (if sign =? 1 then Ret s' else push (Op NOT) s');
    do s' <- push (Wd (TRef v)) s'; Ret (sp s, s')) by (destruct E; subst e; reflexivity).
  rewrite X. destruct (Z.ltb_spec (BOOL_STACK_SIZE - 5) (sp s)) as [L|L]; [split; [exact Logic.I|discriminate]|].
  assert (Vb : vb e v) by (unfold vb; destruct E; subst e; cbn; auto).
  assert (Vc : forall l, covers e ((v, false) :: l)).
  { intros l. split; intros w W.
    - destruct E; subst e; cbn in W; (destruct W as [<-|[]]; now left).
    - destruct E; subst e; destruct W as (t & [] & _). }
  assert (Fk : konst e = None) by (destruct E; subst e; reflexivity).
  assert (Ft : forall a b, Fe e a b -> b = (a v =? 1)) by (unfold Fe; destruct E; subst e; cbn; congruence).
  clear X E. unfold BOOL_STACK_SIZE in L.
  destruct (push_var_ok v false s B) as [->|[-> B']]; cbn [bind]; [split; [exact Logic.I|discriminate]|].
  destruct Sg as [->| ->]; cbn [Z.eqb negb Pos.eqb bind].
  - rewrite push_ok by (cbn [sp]; unfold BOOL_STACK_SIZE; lia). cbn [bind stack sp vars]. split.
    + cbn [runs_to stack sp vars]. exists (NVar v), [(v, false)]. repeat split; cbn [sp stack vars rep]; auto; try lia.
      * intros q Q. apply upd_other. lia.
      * apply upd_same.
      * rewrite Fk. exact Logic.I.
      * intros a b K. apply Ft in K. subst b. cbn [tval]. destruct (a v =? 1); reflexivity.
      * intros w [<-|[]]. auto.
      * intros x [].
      * intros w [W|[]]. injection W as <-. auto.
      * intros w [W|[]]. discriminate.
    + intros p s' Q. injection Q as <- <-. apply Vc.
  - rewrite push_ok by (cbn [sp]; unfold BOOL_STACK_SIZE; lia). cbn [bind stack sp vars].
    rewrite push_ok by (cbn [sp]; unfold BOOL_STACK_SIZE; lia). cbn [bind stack sp vars]. split.
    + cbn [runs_to stack sp vars]. exists (NNot v), [(v, false)]. repeat split; cbn [sp stack vars rep]; auto; try lia.
      * intros q Q. rewrite !upd_other by lia. auto.
      * rewrite upd_other by lia. apply upd_same.
      * apply upd_same.
      * rewrite Fk. exact Logic.I.
      * intros a b K. apply Ft in K. subst b. cbn [tval]. destruct (a v =? 1); reflexivity.
      * intros w [<-|[]]. auto.
      * intros x [].
      * intros w [W|[]]. injection W as <-. auto.
      * intros w [W|[]]. discriminate.
    + intros p s' Q. injection Q as <- <-. apply Vc.
Qed.
Lemma ok_int k : ok (TInt k).
Proof.
  intros sign s Sg P B. cbn [Simplify].
  destruct (Z.ltb_spec (BOOL_STACK_SIZE - 5) (sp s)) as [L|L]; [split; [exact Logic.I|discriminate]|].
  destruct (Z.ltb_spec 1 (to_int k mod 2 ^ 32)) as [L2|L2].
  - split; [|discriminate]. cbn [runs_to proper]. intros [->| ->]; revert L2; vm_compute; discriminate.
  - apply to_int_bit in L2. unfold BOOL_STACK_SIZE in L. rewrite push_ok by (unfold BOOL_STACK_SIZE; lia). cbn [bind]. split.
    + cbn [runs_to]. exists (NCst (xorb (negb (sign =? 1)) (to_int k =? 1))), []. cbn [sp stack vars rep app].
      split; [lia|]. split; [exact B|]. split; [intros q Q; apply upd_other; lia|].
      split; [split; [lia|]; rewrite upd_same; destruct Sg as [->| ->], L2 as [->| ->]; reflexivity|].
      split; [|split; [reflexivity|apply VS_nil]].
      split; [cbn [konst option_map shape]; reflexivity|]. split; [|split; intros x []].
      intros a b. unfold Fe. cbn [truth tval]. destruct (Z.eqb_spec k 0) as [->|N0]; [intros J; injection J as <-; reflexivity|].
      destruct (Z.eqb_spec k 1) as [->|N1]; [intros J; injection J as <-; reflexivity|discriminate].
    + intros p s' Q. injection Q as <- <-. split; [intros v []|intros v (t & [] & _)].
Qed.
Lemma ok_1 f x : ok x -> ok (TStc f [x]).
Proof.
  intros Ox sign s Sg P B. cbn [Simplify List.length].
  destruct (Z.ltb_spec (BOOL_STACK_SIZE - 5) (sp s)) as [L|L]; [split; [exact Logic.I|discriminate]|].
  destruct (find_op (f, 1%nat)) as [op|] eqn:Fo.
  - destruct (find_some _ _ _ Fo) as [(_ & -> & ->)|(C & _)]; [|discriminate]. rewrite Z.eqb_refl.
    assert (Sg' : - sign = 1 \/ - sign = -1) by lia. destruct (Ox (- sign) s Sg' P B) as [R C]. split.
    + eapply runs_imp; [exact R| | | |]; try (intros v J; exact J).
      * cbn [proper]. tauto.
      * intros t [Sh [M [V W]]]. split; [|split; [|split; [exact V|exact W]]].
        -- cbn [konst]. destruct Sg as [->| ->]; destruct (konst x) as [[]|]; exact Sh.
        -- intros a b. unfold Fe. cbn [truth]. rewrite String.eqb_refl. destruct (truth value a x) as [b0|] eqn:Tx; [|discriminate].
           intros J. injection J as <-. rewrite (M a b0 Tx). destruct Sg as [->| ->], b0; reflexivity.
    + intros p s' Q. exact (C p s' Q).
  - split; [|discriminate]. cbn [runs_to proper]. intros [-> _]. discriminate.
Qed.
Lemma cop_pos op : is_cop op -> (EQ <=? op) && (op <=? LTE_F) = true.
Proof. unfold is_cop, EQ, LTE_F. intros B. apply andb_true_iff. split; apply Z.leb_le; lia. Qed.
Lemma bop_neg op : is_bop op -> (EQ <=? op) && (op <=? LTE_F) = false.
Proof. unfold is_bop, EQ, LTE_F. intros B. apply andb_false_iff. left. apply Z.leb_gt. lia. Qed.
Lemma norm_cop op le re n : is_cop op -> n = (if (op =? GT) || (op =? GT_F) then op - 2 else if (op =? GTE) || (op =? GTE_F) then op + 2 else op) ->
  is_ncop n /\ forall a, cmpf n (value a (if n =? op then le else re)) (value a (if n =? op then re else le)) = cmpf op (value a le) (value a re).
Proof.
  intros B E.
  assert (C : op = 9 \/ op = 10 \/ op = 11 \/ op = 12 \/ op = 13 \/ op = 14 \/ op = 15 \/ op = 16 \/ op = 17 \/ op = 18 \/ op = 19 \/ op = 20)
    by (unfold is_cop in B; lia).
  destruct C as [D|[D|[D|[D|[D|[D|[D|[D|[D|[D|[D|D]]]]]]]]]]]; subst op; cbn in E; subst n; (split; [unfold is_ncop; lia|reflexivity]).
Qed.
Lemma ok_cmp f le re op : In (f, op) cmps -> ok (TStc f [le; re]).
Proof.
  intros J sign s Sg P B. rewrite Simplify_2. pose proof (find_in f op (in_or_app _ _ _ (or_intror J))) as Fo. rewrite Fo.
  destruct (cmps_cop f op J) as (Bo & Ic & Cf).
  destruct (Z.ltb_spec (BOOL_STACK_SIZE - 5) (sp s)) as [L|L]; [split; [exact Logic.I|discriminate]|].
  cbv zeta. set (op' := if sign =? 1 then op else flip op).
  assert (Bo' : is_cop op') by (unfold op'; destruct (sign =? 1); [auto|apply flip_cop; auto]).
  assert (Co : forall x y, cmpf op' x y = xorb (negb (sign =? 1)) (cmpf op x y)).
  { intros x y. unfold op'. destruct (sign =? 1); cbn [negb]; [now rewrite xorb_false_l|]. rewrite xorb_true_l. now apply flip_cop. }
  rewrite (cop_pos op' Bo').
  pose proof (Add_ok le s B) as A. destruct (Add_Fd_Variables le s) as [s1| | | |]; cbn [bind]; try contradiction; [|split; [exact Logic.I|discriminate]].
  destruct A as (A1 & A2 & A3 & ws & A4 & A5 & A6).
  pose proof (Add_ok re s1 A3) as A. destruct (Add_Fd_Variables re s1) as [s2| | | |]; cbn [bind]; try contradiction; [|split; [exact Logic.I|discriminate]].
  destruct A as (C1 & C2 & C3 & ws2 & C4 & C5 & C6).
  remember (if (op' =? GT) || (op' =? GT_F) then op' - 2 else if (op' =? GTE) || (op' =? GTE_F) then op' + 2 else op') as n eqn:En.
  destruct (norm_cop op' le re n Bo' En) as [Nn Cn]. clear En.
  unfold BOOL_STACK_SIZE in L.
  rewrite push_ok by (cbn [sp]; unfold BOOL_STACK_SIZE; lia). cbn [bind].
  rewrite push_ok by (cbn [sp]; unfold BOOL_STACK_SIZE; lia). cbn [bind].
  rewrite push_ok by (cbn [sp]; unfold BOOL_STACK_SIZE; lia). cbn [bind stack sp vars].
  assert (At : arith_terms (TStc f [le; re]) = [le; re]) by (cbn [arith_terms]; now rewrite Ic).
  split.
  - cbn [runs_to stack sp vars]. exists (NCmp n (if n =? op' then le else re) (if n =? op' then re else le)), (ws2 ++ ws).
    cbn [stack sp vars rep].
    split; [lia|]. split; [exact C3|]. split; [intros q Q; rewrite !upd_other by lia; congruence|].
    split; [replace (sp s + 2) with (sp s2 + 1 + 1) by lia; replace (sp s + 1) with (sp s2 + 1) by lia; replace (sp s) with (sp s2) by lia;
            repeat split; try lia; repeat first [rewrite upd_same|rewrite upd_other by lia]; reflexivity|].
    split; [split; [|split; [|split]]|].
    + cbn [konst]. rewrite Fo. unfold is_cop in Bo. destruct (Z.leb_spec op 8); [lia|]. exact Nn.
    + intros a b. unfold Fe. cbn [truth]. rewrite Cf. intros Q. injection Q as <-. cbn [tval]. rewrite Cn. apply Co.
    + intros v [].
    + unfold at_. rewrite At. cbn [tterms In]. intros x [<-|[<-|[]]]; destruct (n =? op'); auto.
    + split; [rewrite C4, A4; apply app_assoc|]. split; intros v K; apply in_app_or in K.
      * destruct K as [K|K]; exfalso; [now apply (C5 v)|now apply (A5 v)].
      * unfold vf. rewrite At. cbn [In]. destruct K as [K|K]; [apply C6 in K; exists re|apply A6 in K; exists le]; auto.
  - intros p s' Q. injection Q as <- <-. cbn [vars]. rewrite C4, A4. unfold covers, vb, vf. rewrite At. cbn [bool_vars]. rewrite Ic.
    split; [intros v []|]. intros v (t & Q & K). rewrite !in_app_iff, C6, A6. cbn [In] in Q. destruct Q as [<-|[<-|[]]]; auto.
Qed.
Lemma ok_bin f le re op : In (f, op) bins -> ok le -> ok re -> ok (TStc f [le; re]).
Proof.
  intros J Ol Or sign s Sg P B. rewrite Simplify_2. pose proof (find_in f op (in_or_app _ _ _ (or_introl J))) as Fo. rewrite Fo.
  destruct (bins_bop f op J) as (Bo & Ic & Bf & Cf).
  destruct (Z.ltb_spec (BOOL_STACK_SIZE - 5) (sp s)) as [L|L]; [split; [exact Logic.I|discriminate]|].
  cbv zeta. set (op' := if sign =? 1 then op else flip op).
  assert (Bo' : is_bop op') by (unfold op'; destruct (sign =? 1); [auto|apply flip_bop; auto]).
  assert (Co : forall x y, bf op' x y = xorb (negb (sign =? 1)) (bf op x y)).
  { intros x y. unfold op'. destruct (sign =? 1); cbn [negb]; [now rewrite xorb_false_l|]. rewrite xorb_true_l. now apply flip_bop. }
  assert (Ko : forall c d, fold2 op' c d = option_map (xorb (negb (sign =? 1))) (fold2 op c d)).
  { intros c d. unfold op'. destruct (sign =? 1); cbn [negb]; [destruct (fold2 op c d) as [[]|]; reflexivity|]. rewrite fold2_flip by auto.
    destruct (fold2 op c d) as [[]|]; reflexivity. }
  rewrite (bop_neg op' Bo').
  set (e := TStc f [le; re]).
  assert (Tl : ~ proper le -> ~ proper e) by (cbn [e proper]; rewrite Ic; intros Q [C|(_ & K & _)]; [discriminate|tauto]).
  assert (Tr : ~ proper re -> ~ proper e) by (cbn [e proper]; rewrite Ic; intros Q [C|(_ & _ & K)]; [discriminate|tauto]).
  assert (Vl : forall v, vb le v -> vb e v) by (intros v K; unfold vb in *; cbn [e bool_vars]; rewrite Ic; apply in_or_app; auto).
  assert (Vr : forall v, vb re v -> vb e v) by (intros v K; unfold vb in *; cbn [e bool_vars]; rewrite Ic; apply in_or_app; auto).
  assert (Al : forall t, at_ le t -> at_ e t) by (intros v K; unfold at_ in *; cbn [e arith_terms]; rewrite Ic; apply in_or_app; auto).
  assert (Ar : forall t, at_ re t -> at_ e t) by (intros v K; unfold at_ in *; cbn [e arith_terms]; rewrite Ic; apply in_or_app; auto).
  assert (Wl : forall v, vf le v -> vf e v) by (intros v (t & K & Kt); exists t; split; [now apply Al|auto]).
  assert (Wr : forall v, vf re v -> vf e v) by (intros v (t & K & Kt); exists t; split; [now apply Ar|auto]).
  unfold BOOL_STACK_SIZE in L.
  rewrite write_ok by (unfold BOOL_STACK_SIZE; lia). cbn [bind set_sp stack sp vars].
  set (s2 := St (upd (stack s) (sp s) (Op op')) (sp s + 3) (vars s)).
  assert (O1 : forall s0, 0 <= sp s0 -> bnd s0 -> runs_to (~ proper e) (sp s0) s0 (G (vb e) (at_ e) (Fe le) (konst le) true) (vb e) (vf e) (Simplify (-1) le s0)).
  { intros s0 Q1 Q2. destruct (Ol (-1) s0 (or_intror eq_refl) Q1 Q2) as [R _]. eapply runs_imp; [exact R|auto| |auto|auto].
    intros t Gt. eapply G_imp; [exact Gt|auto|auto|auto]. }
  assert (O2 : forall s0, 0 <= sp s0 -> bnd s0 -> runs_to (~ proper e) (sp s0) s0 (G (vb e) (at_ e) (Fe re) (konst re) true) (vb e) (vf e) (Simplify (-1) re s0)).
  { intros s0 Q1 Q2. destruct (Or (-1) s0 (or_intror eq_refl) Q1 Q2) as [R _]. eapply runs_imp; [exact R|auto| |auto|auto].
    intros t Gt. eapply G_imp; [exact Gt|auto|auto|auto]. }
  assert (P2 : 0 <= sp s2) by (cbn [s2 sp]; lia).
  destruct (Ol 1 s2 (or_introl eq_refl) P2 B) as [R1 K1]. unfold store_at at 1.
  destruct (Simplify 1 le s2) as [[p1 s3]| | | |]; cbn [runs_to bind] in *; try contradiction;
    [|split; [cbn [runs_to]; auto|discriminate]|split; [exact Logic.I|discriminate]].
  specialize (K1 p1 s3 eq_refl).
  destruct R1 as (t1 & w1 & A1 & A2 & A3 & A4 & A5 & A6 & A7). cbn [s2 sp vars stack] in *.
  rewrite write_ok by (unfold BOOL_STACK_SIZE; lia). cbn [bind sp].
  set (s4 := St (upd (stack s3) (sp s + 1) (Ptr p1)) (sp s3) (vars s3)).
  assert (P4 : 0 <= sp s4) by (cbn [s4 sp]; lia).
  destruct (Or 1 s4 (or_introl eq_refl) P4 A2) as [R2 K2]. unfold store_at at 1.
  destruct (Simplify 1 re s4) as [[p2 s5]| | | |]; cbn [runs_to bind] in *; try contradiction;
    [|split; [cbn [runs_to]; auto|discriminate]|split; [exact Logic.I|discriminate]].
  specialize (K2 p2 s5 eq_refl).
  destruct R2 as (t2 & w2 & C1 & C2 & C3 & C4 & C5 & C6 & C7). cbn [s4 sp vars stack] in *.
  rewrite write_ok by (unfold BOOL_STACK_SIZE; lia). cbn [bind sp].
  set (s6 := St (upd (stack s5) (sp s + 2) (Ptr p2)) (sp s5) (vars s5)).
  assert (M0 : stack s6 (sp s) = Some (Op op')).
  { cbn [s6 stack]. rewrite upd_other, C3, upd_other, A3 by lia. apply upd_same. }
  assert (M1 : stack s6 (sp s + 1) = Some (Ptr p1)).
  { cbn [s6 stack]. rewrite upd_other, C3 by lia. apply upd_same. }
  assert (M2 : stack s6 (sp s + 2) = Some (Ptr p2)) by apply upd_same.
  assert (R1 : rep (stack s6) (sp s + 3) (sp s3) p1 t1).
  { eapply rep_frame; [exact A4|lia|lia|]. intros q Q. cbn [s6 stack]. rewrite upd_other, C3, upd_other by lia. auto. }
  assert (R2 : rep (stack s6) (sp s3) (sp s6) p2 t2).
  { eapply rep_frame; [exact C4|lia|cbn [s6 sp]; lia|]. intros q Q. cbn [s6 stack]. apply upd_other. lia. }
  unfold ptr at 1, read at 1. rewrite M1. cbn [bind]. unfold ptr at 1, read at 1. rewrite M2. cbn [bind].
  unfold read at 1. rewrite (rep_head _ _ _ _ _ R1). cbn [bind]. unfold read at 1. rewrite (rep_head _ _ _ _ _ R2). cbn [bind].
  assert (G1 : G (vb e) (at_ e) (Fe le) (konst le) false t1) by (eapply G_imp; [exact A5|auto|auto|auto]).
  assert (G2 : G (vb e) (at_ e) (Fe re) (konst re) false t2) by (eapply G_imp; [exact C5|auto|auto|auto]).
  pose proof (switch_ok (~ proper e) op' (sp s) (sp s3) (konst le) (konst re) t1 t2 p1 p2 (Simplify (-1) le) (Simplify (-1) re) s6
    (vb e) (vf e) (vb e) (at_ e) (Fe le) (Fe re) Bo' P ltac:(unfold BOOL_STACK_SIZE; lia) A1 C1 C2 M0 M1 M2 R1 R2 O1 O2 G1 G2) as X.
  set (r := switch op' (sp s) (sp s3) (head t1) (head t2) (Simplify (-1) le) (Simplify (-1) re) s6) in *. clearbody r.
  split.
  - eapply runs_imp.
    + eapply (runs_trans _ _ s s6 (w2 ++ w1)); [exact X| | |].
      * intros q Q. cbn [s6 stack]. rewrite upd_other, C3, upd_other, A3, upd_other by lia. auto.
      * cbn [s6 vars]. rewrite C6, A6. apply app_assoc.
      * apply VS_app; [exact (VS_imp _ _ _ _ _ C7 Vr Wr)|exact (VS_imp _ _ _ _ _ A7 Vl Wl)].
    + auto.
    + intros t [Sh [M [V W]]]. split; [|split; [|split; [exact V|exact W]]].
      * cbn [e konst]. rewrite Fo. unfold is_bop in Bo. destruct (Z.leb_spec op 8) as [_|]; [|lia]. rewrite <- Ko.
        destruct (fold2 op' (konst le) (konst re)) as [[]|]; exact Sh.
      * intros a b. unfold Fe. cbn [e truth]. rewrite Cf.
        destruct (truth value a le) as [b1|] eqn:T1; [|discriminate]. destruct (truth value a re) as [b2|] eqn:T2; [|discriminate].
        rewrite Bf. intros Q. injection Q as <-. rewrite <- Co. rewrite <- (xorb_false_l (bf op' b1 b2)). apply M. exists b1, b2. auto.
    + auto.
    + auto.
  - intros p s' ->. cbn [runs_to] in X. destruct X as (t & ws & _ & _ & _ & _ & _ & X & _). rewrite X. apply covers_app. cbn [s6 vars].
    assert (K1' : covers le (vars s5)) by (rewrite C6; now apply covers_app).
    split.
    + intros v. unfold vb. cbn [e bool_vars]. rewrite Ic, in_app_iff. intros [K|K]; [now apply K1'|now apply K2].
    + intros v (u & K & Ku). unfold at_ in *. cbn [e arith_terms] in K. rewrite Ic, in_app_iff in K.
      destruct K as [K|K]; [apply K1'|apply K2]; exists u; auto.
Qed.
Theorem simplify_ok e : ok e.
Proof.
  induction e as [v|v|n| | |f l IH] using term_ind'.
  - apply (ok_var _ v). auto.
  - apply (ok_var _ v). auto.
  - apply ok_int.
  - intros sign s Sg P B. cbn [Simplify]. destruct (BOOL_STACK_SIZE - 5 <? sp s); (split; [cbn; tauto|discriminate]).
  - intros sign s Sg P B. cbn [Simplify]. destruct (BOOL_STACK_SIZE - 5 <? sp s); (split; [cbn; tauto|discriminate]).
  - destruct l as [|x [|y [|z l]]].
    + intros sign s Sg P B. cbn [Simplify List.length].
      destruct (find_op (f, 0%nat)) as [op|] eqn:Fo; [destruct (find_some _ _ _ Fo) as [(C & _)|(C & _)]; discriminate|].
      destruct (BOOL_STACK_SIZE - 5 <? sp s); (split; [cbn; tauto|discriminate]).
    + apply ok_1. now inversion IH.
    + inversion IH as [|? ? Ox IH']. inversion IH' as [|? ? Oy _]. subst. destruct (find_op (f, 2%nat)) as [op|] eqn:Fo.
      * destruct (find_some _ _ _ Fo) as [(C & _)|(_ & [J|J])]; [discriminate| |].
        -- now apply (ok_bin f x y op).
        -- now apply (ok_cmp f x y op).
      * intros sign s Sg P B. rewrite Simplify_2, Fo. destruct (find_none f Fo) as [N1 N2].
        destruct (BOOL_STACK_SIZE - 5 <? sp s); (split; [cbn [runs_to proper]; rewrite ?N1, ?N2; try exact Logic.I|discriminate]).
        intros [Q|(Q & _)]; [discriminate|now apply Q].
    + intros sign s Sg P B. cbn [Simplify List.length].
      destruct (find_op (f, S (S (S (List.length l))))) as [op|] eqn:Fo;
        [destruct (find_some _ _ _ Fo) as [(C & _)|(C & _)]; discriminate|].
      destruct (BOOL_STACK_SIZE - 5 <? sp s); (split; [cbn; tauto|discriminate]).
Qed.
End S.
