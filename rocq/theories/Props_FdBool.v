(** C69: a boolean FD constraint means what its truth table says. *)
Require Import ZArith List Bool String Lia.
Require Import Verif.FdBool_Model Verif.FdBool_Spec Verif.FdBool_Proofs Verif.FdBool_Load.
Import ListNotations.
Open Scope Z_scope.

(** ** C69_simplify: the expression built in the stack.  [rep]: the cells from 0 to sp hold the tree [t]; in [t] a negation is
    only on a variable; no constant is inside of it ([okt]), and it is a constant only when constants alone decide it *)
Theorem C69_simplify : forall value e p x,
  Simplify 1 e (St (fun _ => None) 0 []) = Ret (p, x) ->
  exists t, rep (stack x) 0 (sp x) p t /\ (okt t \/ exists b, t = NCst b) /\
    (forall a b, truth value a e = Some b -> tval value a t = b) /\
    (forall v, In v (tvars t) -> In v (bool_vars e)) /\ (forall y, In y (tterms t) -> In y (arith_terms e)) /\
    (forall v, In (v, false) (vars x) <-> In v (bool_vars e)) /\
    (forall v, In (v, true) (vars x) <-> exists y, In y (arith_terms e) /\ In v (unbound y)).
Proof.
  intros value e p x Q. set (x0 := St (fun _ => None) 0 []) in *.
  assert (B0 : bnd x0) by (unfold bnd, x0, VARS_STACK_SIZE; cbn; lia).
  destruct (simplify_ok value e 1 x0 (or_introl eq_refl) (Z.le_refl 0) B0) as [R Cv]. rewrite Q in R. cbn [runs_to] in R.
  specialize (Cv p x Q). destruct R as (t & ws & _ & _ & _ & Rp & (Sh & M & Vt & Wt) & Ew & Vs). cbn in Ew. rewrite app_nil_r in Ew. subst ws.
  exists t. split; [exact Rp|]. split; [|split; [|split; [exact Vt|split; [exact Wt|]]]].
  - destruct (konst e) as [b|]; [right; eexists; exact Sh|left; exact Sh].
  - intros a b T. rewrite (M a b T). apply xorb_false_l.
  - split; intros v; (split; intros J; [|now apply Cv]); now apply Vs.
Qed.
Print Assumptions C69_simplify.
(** X0 #/\ (0 #\/ #\ X1): one node, its second operand a negation *)
Example C69_simplify_ex : exists p x, Simplify 1 (TStc "#/\" [TRef 0; TStc "#\/" [TInt 0; TStc "#\" [TRef 1]]]) (St (fun _ => None) 0 []) = Ret (p, x) /\
  p = 0 /\ stack x 0 = Some (Op NIMPLY).
Proof. vm_compute. eexists; eexists. split; [reflexivity|]. split; reflexivity. Qed.

Section Meaning.
Variable value : asg -> term -> Z.
Variable defined : asg -> term -> Prop.
Variable load_left_right : term -> term -> store -> store * (Z * Z * word * word).
(** what the arithmetic is relied on for *)
Definition arithmetic : Prop := load_ok value defined load_left_right /\
  forall n t a b, term_below value n t -> agree n a b -> defined a t -> defined b t.
(** the expression handed over by the caller *)
Definition expression (op : nat) (le re e : term) : Prop :=
  exists f n, nth_error bool_tbl op = Some (f, n) /\ e = TStc f (firstn n [le; re]).
Definition natural_vars (a : asg) (e : term) : Prop := forall t v, In t (arith_terms e) -> In v (unbound t) -> 0 <= a v.

(** ** C69_sound: no assignment satisfies the constraints posted unless it satisfies the expression *)
Theorem C69_sound : arithmetic -> forall op le re e s, expression op le re e -> store_ok value s -> exp_below value (next s) e ->
  exists N, forall fuel s', (N <= fuel)%nat -> Fd_Bool_Meta_3 load_left_right fuel le re op s = Ret s' ->
  forall a, sat value a s' -> sat value a s /\ booleans a e /\ natural_vars a e /\ (proper e -> truth value a e = Some true).
Proof.
  intros [LO DB] op le re e s (f & n & En & ->) K B.
  destruct (meta_ok value defined load_left_right LO DB f n op le re s En K B) as [N Q]. exists N. intros fuel s' L E a Sa.
  specialize (Q fuel L). rewrite E in Q. destruct Q as [(_ & _ & X & _) Y]. destruct (Y a Sa) as (Ba & Na & Ta).
  split; [auto|]. split; [auto|]. split; [exact Na|]. intros P. destruct (truth_proper value a _ P) as [b Tb]. rewrite Tb. f_equal. auto.
Qed.

(** ** C69_complete: no assignment that satisfies the expression is lost; the new variables can be given values *)
Theorem C69_complete : arithmetic -> forall op le re e s, expression op le re e -> store_ok value s -> exp_below value (next s) e ->
  exists N, forall fuel s', (N <= fuel)%nat -> Fd_Bool_Meta_3 load_left_right fuel le re op s = Ret s' ->
  store_ok value s' /\ (next s <= next s')%nat /\
  forall a, sat value a s -> booleans a e -> natural_vars a e -> (forall t, In t (arith_terms e) -> defined a t) ->
    truth value a e = Some true -> exists a', agree (next s) a a' /\ sat value a' s'.
Proof.
  intros [LO DB] op le re e s (f & n & En & ->) K B.
  destruct (meta_ok value defined load_left_right LO DB f n op le re s En K B) as [N Q]. exists N. intros fuel s' L E.
  specialize (Q fuel L). rewrite E in Q. destruct Q as [(X1 & X2 & _ & X3) _]. split; [auto|]. split; [auto|]. intros a Sa Ba Na Da Ta.
  apply X3; auto.
Qed.

(** ** C69_safe: nothing outside of the two stacks is read or written, no cell is read before it is written, and the function
    of func_tbl called is never NULL *)
Theorem C69_safe : arithmetic -> forall op le re e s, expression op le re e -> store_ok value s -> exp_below value (next s) e ->
  exists N, forall fuel, (N <= fuel)%nat ->
  Fd_Bool_Meta_3 load_left_right fuel le re op s <> UB /\ Fd_Bool_Meta_3 load_left_right fuel le re op s <> NoFuel.
Proof.
  intros [LO DB] op le re e s (f & n & En & ->) K B.
  destruct (meta_ok value defined load_left_right LO DB f n op le re s En K B) as [N Q]. exists N. intros fuel L. specialize (Q fuel L).
  destruct (Fd_Bool_Meta_3 load_left_right fuel le re op s); try contradiction; split; discriminate.
Qed.

(** ** C69_errors: a type error is raised exactly for what is not a boolean expression, when an int holds the integers *)
Theorem C69_errors : arithmetic -> forall op le re e s, expression op le re e -> store_ok value s -> exp_below value (next s) e ->
  exists N, forall fuel, (N <= fuel)%nat ->
  (Fd_Bool_Meta_3 load_left_right fuel le re op s = TypeErr -> ~ proper e) /\
  (fits e -> forall s', Fd_Bool_Meta_3 load_left_right fuel le re op s = Ret s' -> proper e).
Proof.
  intros [LO DB] op le re e s (f & n & En & ->) K B.
  destruct (meta_ok value defined load_left_right LO DB f n op le re s En K B) as [N Q]. exists N. intros fuel L. specialize (Q fuel L).
  split.
  - intros E. now rewrite E in Q.
  - intros F s' E. unfold Fd_Bool_Meta_3 in E. rewrite En in E.
    destruct (Simplify 1 (TStc f (firstn n [le; re])) (St (fun _ => None) 0 [])) as [[p x]| | | |] eqn:Es; try discriminate.
    eapply accepted; eauto.
Qed.
End Meaning.
Print Assumptions C69_sound.
Print Assumptions C69_complete.
Print Assumptions C69_safe.
Print Assumptions C69_errors.

(** ** C69_int_refuted: an integer that an int does not hold is cut: X #<=> 2^32 is taken for X #<=> 0 *)
Theorem C69_int_refuted : exists load_left_right fuel s',
  Fd_Bool_Meta_3 load_left_right fuel (TRef 0) (TInt (2 ^ 32)) 1 (Store 1 []) = Ret s' /\
  ~ proper (TStc "#<=>" [TRef 0; TInt (2 ^ 32)]) /\ forall value a, sat value a s' <-> a 0%nat = 0.
Proof.
  exists (fun _ _ s => (s, (0, 0, WInt 0, WInt 0))), 3%nat. eexists. split; [vm_compute; reflexivity|]. split.
  - cbn [proper]. intros [Q|(_ & _ & Q)]; [discriminate|lia].
  - intros value a. unfold sat. cbn [csts In]. split.
    + intros Q. apply (Q (CInt 0 (WVar 0))). auto.
    + intros Q k J. repeat (destruct J as [<-|J]; [cbn; unfold bit; auto|]). destruct J.
Qed.
Print Assumptions C69_int_refuted.

(** ** An arithmetic: integers and variables *)
Definition ex_value (a : asg) (t : term) : Z := match t with TRef v | TFdv v => a v | TInt n => n | _ => 0 end.
Definition ex_defined (a : asg) (t : term) : Prop := match t with TRef v | TFdv v => 0 <= a v | _ => True end.
Definition ex_load (le re : term) (s : store) : store * (Z * Z * word * word) :=
  let load t := match t with TRef v | TFdv v => (1, 0, WVar v) | TInt n => (0, n, WInt 0) | _ => (0, 0, WInt 0) end in
  let '(m1, n1, w1) := load le in let '(m2, n2, w2) := load re in
  (post (CFd w2) (post (CFd w1) s), (m1 + 2 * m2, n1 - n2, w1, w2)).
(** a variable of an FD term is below *)
Lemma ex_below n v : (forall a b, agree n a b -> a v = b v) -> (v < n)%nat.
Proof.
  intros Q. destruct (Nat.ltb_spec v n) as [|L]; [auto|]. exfalso.
  specialize (Q (fun _ => 0) (fun w => if Nat.eqb w v then 1 else 0)). cbn in Q. rewrite Nat.eqb_refl in Q.
  enough (0 = 1) by lia. apply Q. intros w Lw. destruct (Nat.eqb_spec w v); [lia|reflexivity].
Qed.
Lemma ex_arithmetic : arithmetic ex_value ex_defined ex_load.
Proof.
  split.
  - intros le re s s' mask n l r K [Bl _] [Br _] E.
    assert (P1 : exists m1 n1, (m1 = 0 \/ m1 = 1) /\ word_below (next s) l /\
      (forall a, holds ex_value a (CFd l) -> ex_value a le = (if m1 =? 1 then val a l else 0) + n1) /\
      (forall a, ex_defined a le -> holds ex_value a (CFd l)) /\
      exists m2 n2, (m2 = 0 \/ m2 = 1) /\ word_below (next s) r /\
      (forall a, holds ex_value a (CFd r) -> ex_value a re = (if m2 =? 1 then val a r else 0) + n2) /\
      (forall a, ex_defined a re -> holds ex_value a (CFd r)) /\
      s' = post (CFd r) (post (CFd l) s) /\ mask = m1 + 2 * m2 /\ n = n1 - n2).
    { exists (match le with TRef _ | TFdv _ => 1 | _ => 0 end), (match le with TInt k => k | _ => 0 end).
      unfold ex_load in E.
      destruct le as [v|v|k| | |f lf];
      (split; [auto|]); (split; [destruct re; injection E as <- <- <- <- <-; first [exact Logic.I|cbn; apply ex_below; exact Bl]|]);
      (split; [destruct re; injection E as <- <- <- <- <-; intros a _; cbn; lia|]);
      (split; [destruct re; injection E as <- <- <- <- <-; intros a Q; cbn in *; lia|]);
      exists (match re with TRef _ | TFdv _ => 1 | _ => 0 end), (match re with TInt k => k | _ => 0 end);
      destruct re as [w|w|j| | |g lg]; injection E as <- <- <- <- <-;
      (split; [auto|]); (split; [first [exact Logic.I|cbn; apply ex_below; exact Br]|]);
      (split; [intros a _; cbn; lia|]); (split; [intros a Q; cbn in *; lia|]); repeat split; reflexivity. }
    destruct P1 as (m1 & n1 & M1 & W1 & V1 & D1 & m2 & n2 & M2 & W2 & V2 & D2 & -> & -> & ->).
    split; [lia|]. split; [cbn; lia|]. split; [|split; [exact W1|split; [exact W2|split]]].
    + intros k [<-|[<-|J]]; [| |exact (K k J)]; intros a b A; cbn; [rewrite (val_agree _ a b r W2 A)|rewrite (val_agree _ a b l W1 A)]; auto.
    + intros a Sa. pose proof (Sa _ (or_introl eq_refl)) as H2. pose proof (Sa _ (or_intror (or_introl eq_refl))) as H1.
      split; [intros k J; apply Sa; right; now right|]. rewrite (V1 a H1), (V2 a H2). cbn in H1, H2.
      destruct M1 as [-> | ->], M2 as [-> | ->]; cbn; lia.
    + intros a Sa Q1 Q2. exists a. split; [apply agree_refl|]. intros k [<-|[<-|J]]; auto.
  - intros n t a b [B _] A. destruct t as [v|v|k| | |f l]; cbn; auto; specialize (B a b A); cbn in B; rewrite B; auto.
Qed.
(** X0 #<=> (X1 #< 5), with X0 and X1 unbound: what is asked of the caller, an assignment that satisfies it, and one that
    does not *)
Definition ex_e : term := TStc "#<=>" [TRef 0; TStc "#<" [TRef 1; TInt 5]].
Example C69_ex : expression 1 (TRef 0) (TStc "#<" [TRef 1; TInt 5]) ex_e /\ store_ok ex_value (Store 2 []) /\
  exp_below ex_value 2 ex_e /\ proper ex_e /\ fits ex_e /\
  (let a := fun v => match v with O => 1 | _ => 3 end in
   booleans a ex_e /\ natural_vars a ex_e /\ (forall t, In t (arith_terms ex_e) -> ex_defined a t) /\ truth ex_value a ex_e = Some true) /\
  (let a := fun v => match v with O => 1 | _ => 7 end in truth ex_value a ex_e = Some false) /\
  exists s', Fd_Bool_Meta_3 ex_load 5 (TRef 0) (TStc "#<" [TRef 1; TInt 5]) 1 (Store 2 []) = Ret s' /\
  In (truth_x_lte_c (WVar 1) 4 (WVar 2)) (csts s') /\ In (Unify_X_Y (WVar 0) (WVar 2)) (csts s').
Proof.
  split; [exists "#<=>"%string, 2%nat; split; reflexivity|]. split; [intros k []|]. split; [|split; [|split; [|split; [|split]]]].
  - split; [intros v [<-|[]]; lia|]. intros t [<-|[<-|[]]]; (split; [intros a b A; cbn; try reflexivity; apply A; lia|intros v J; cbn in J; lia]).
  - cbn. right. split; [discriminate|]. split; [exact Logic.I|now left].
  - cbn. lia.
  - cbv zeta. split; [intros v [<-|[]]; now right|]. split; [intros t v [<-|[<-|[]]] J; cbn in J; [destruct J as [<-|[]]; lia|destruct J]|].
    split; [intros t [<-|[<-|[]]]; cbn; lia|reflexivity].
  - reflexivity.
  - eexists. split; [vm_compute; reflexivity|]. cbn [csts In]. split; tauto.
Qed.
(** X0 #<=> foo is refused *)
Example C69_errors_ex : Fd_Bool_Meta_3 ex_load 5 (TRef 0) TAtm 1 (Store 1 []) = TypeErr /\ ~ proper (TStc "#<=>" [TRef 0; TAtm]).
Proof. split; [reflexivity|]. cbn. intros [Q|(_ & _ & Q)]; [discriminate|exact Q]. Qed.
