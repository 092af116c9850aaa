(** C72: fd_domain/3 and fd_reified_in/4. *)
Require Import ZArith List Bool Lia.
Require Import Verif.FdIn_Model.
Import ListNotations.
Open Scope Z_scope.

(** ** What the constraints mean *)
Definition asg : Type := nat -> Z.
Definition val (g : asg) (w : word) : Z := match w with REF v | FDV v _ _ => g v | INT n => n | OTHER => 0 end.
(** the values that the word can have: those of an FD variable (0..2^28 - 1), those between its bounds, the integer *)
Definition can (g : asg) (w : word) : Prop := match w with FDV v l u => 0 <= l /\ u <= 2 ^ 28 - 1 /\ l <= g v <= u | _ => True end.
Definition is_var (w : word) : bool := match w with REF _ | FDV _ _ _ => true | _ => false end.
Definition fd_value (g : asg) (w : word) : Prop := is_var w = true -> 0 <= val g w <= 2 ^ 28 - 1.
Definition holds (g : asg) (c : cst) : Prop :=
  match c with
  | Get_Integer n w => val g w = n
  | In_Interval w l u => l <= val g w <= u
  | not_domain w l u => ~ (l <= val g w <= u)
  | New_Variable w => 0 <= val g w <= 2 ^ 28 - 1
  | Bool_Var b => val g b = 0 \/ val g b = 1
  | truth_x_in_l_u x l u b => val g b = Z.b2z ((l <=? val g x) && (val g x <=? u))
  end.
(** the solutions of what is posted are those of [S] *)
Definition means (x b : word) (S : asg -> Prop) (r : res) : Prop :=
  match r with
  | Err_Type_Fd => x = OTHER \/ b = OTHER
  | Fails => forall g, can g x -> can g b -> ~ S g
  | Posts l => x <> OTHER /\ b <> OTHER /\ forall g, can g x -> can g b -> (Forall (holds g) l <-> S g)
  end.
Definition small (n : Z) : Prop := - (2 ^ 28 - 1) <= n <= 2 ^ 28 - 1.

Lemma value_small n : small n -> Prolog_To_Value n = n.
Proof.
  unfold small, Prolog_To_Value, INTERVAL_MAX_INTEGER. intros H.
  destruct (Z.ltb_spec n (- (2 ^ 28 - 1))); [lia|]. destruct (Z.ltb_spec (2 ^ 28 - 1) n); lia.
Qed.
Ltac hyps := repeat match goal with
  | H : Forall _ (_ :: _) |- _ => inversion H; clear H; subst
  | H : Forall _ [] |- _ => clear H end.

Lemma absurd_means x b S l : x <> OTHER -> b <> OTHER -> (forall g, can g x -> False) -> means x b S (Posts l).
Proof. intros NX NB N. cbn [means]. split; [exact NX|]. split; [exact NB|]. intros g C. destruct (N g C). Qed.

(** ** C72_domain: fd_domain(X, L, U) has the solutions L <= X <= U that an FD variable can have *)
Theorem C72_domain : forall x l u, small l -> small u -> (forall n, x = INT n -> 0 <= n) ->
  means x (INT 0) (fun g => fd_value g x /\ l <= val g x <= u) (Domain_Var_3 x l u).
Proof.
  intros x l u Hl Hu Hx. unfold Domain_Var_3. rewrite !value_small by assumption. unfold small in *.
  set (min := if l <? 0 then 0 else l). assert (Hm : min = Z.max 0 l) by (unfold min; destruct (Z.ltb_spec l 0); lia). clearbody min.
  destruct x as [v|v a b|n|]; cbn [Domain_Interval].
  - destruct (Z.ltb_spec u min) as [H|H]; [|destruct (Z.eqb_spec min u) as [E|E]]; cbn [means].
    + intros g _ _ [F Q]. specialize (F eq_refl). cbn [val] in *. lia.
    + split; [discriminate|]. split; [discriminate|]. intros g _ _. unfold fd_value. cbn [val is_var]. split.
      * intros F. hyps. cbn in *. lia.
      * intros [F Q]. specialize (F eq_refl). repeat constructor. cbn. lia.
    + split; [discriminate|]. split; [discriminate|]. intros g _ _. unfold fd_value. cbn [val is_var]. split.
      * intros F. hyps. cbn [holds val] in *. lia.
      * intros [F Q]. specialize (F eq_refl). repeat constructor; cbn; lia.
  - cbn [means]. split; [discriminate|]. split; [discriminate|]. intros g C _. cbn [can] in C. unfold fd_value. cbn [val is_var]. split.
    + intros F. hyps. cbn [holds val] in *. lia.
    + intros [F Q]. specialize (F eq_refl). repeat constructor; cbn; lia.
  - specialize (Hx n eq_refl). destruct (Z.leb_spec min n); destruct (Z.leb_spec n u); cbn [andb means].
    + split; [discriminate|]. split; [discriminate|]. intros g _ _. unfold fd_value. cbn [val is_var]. split; [intros _; split; [discriminate|lia]|constructor].
    + intros g _ _ [_ Q]. cbn [val] in Q. lia.
    + intros g _ _ [_ Q]. cbn [val] in Q. lia.
    + intros g _ _ [_ Q]. cbn [val] in Q. lia.
  - cbn. auto.
Qed.

(** ** C72_reified: fd_reified_in(X, L, U, B) has the solutions B = 1 with L <= X <= U, B = 0 with another X *)
Theorem C72_reified : forall x l u b, small l -> small u -> (forall n, x = INT n -> 0 <= n) ->
  means x b (fun g => fd_value g x /\ val g b = Z.b2z ((l <=? val g x) && (val g x <=? u))) (Reified_In x l u b).
Proof.
  intros x l u b Hl Hu Hx. unfold Reified_In. rewrite !value_small by assumption. unfold small in *.
  set (min := if l <? 0 then 0 else l). assert (Hm : min = Z.max 0 l) by (unfold min; destruct (Z.ltb_spec l 0); lia). clearbody min.
  assert (In1 : forall z, 0 <= z -> (min <=? z) && (z <=? u) = (l <=? z) && (z <=? u)).
  { intros z Hz. f_equal. destruct (Z.leb_spec min z), (Z.leb_spec l z); auto; lia. }
  assert (T : forall z, Z.b2z ((l <=? z) && (z <=? u)) = 1 <-> l <= z <= u).
  { intros z. destruct (Z.leb_spec l z), (Z.leb_spec z u); cbn; lia. }
  assert (T0 : forall z, Z.b2z ((l <=? z) && (z <=? u)) = 0 <-> ~ (l <= z <= u)).
  { intros z. destruct (Z.leb_spec l z), (Z.leb_spec z u); cbn; lia. }
  assert (TB : forall z, Z.b2z ((l <=? z) && (z <=? u)) = 0 \/ Z.b2z ((l <=? z) && (z <=? u)) = 1) by (intros z; destruct ((l <=? z) && (z <=? u)); cbn; auto).
  (* X has bounds, B is a variable *)
  assert (Var : forall fresh xw p q, is_var xw = true -> b <> OTHER -> 0 <= p -> q <= 2 ^ 28 - 1 ->
    (forall g, can g xw -> (Forall (holds g) fresh -> p <= val g xw <= q) /\ (0 <= val g xw <= 2 ^ 28 - 1 -> p <= val g xw <= q -> Forall (holds g) fresh)) ->
    (forall g, can g xw -> 0 <= val g xw <= 2 ^ 28 - 1 -> p <= val g xw <= q) ->
    means xw b (fun g => fd_value g xw /\ val g b = Z.b2z ((l <=? val g xw) && (val g xw <=? u)))
      (if (min <=? p) && (q <=? u) then Posts (fresh ++ [Get_Integer 1 b])
       else if (u <? min) || (q <? min) || (u <? p) then Posts (fresh ++ [Get_Integer 0 b]) else Posts (fresh ++ [Bool_Var b; truth_x_in_l_u xw l u b]))).
  { intros fresh xw p q V NB Hp Hq F1 F2. assert (NX : xw <> OTHER) by (intros ->; discriminate V).
    assert (Fd : forall g, fd_value g xw <-> 0 <= val g xw <= 2 ^ 28 - 1) by (intros g; unfold fd_value; tauto).
    destruct ((min <=? p) && (q <=? u)) eqn:E1; [|destruct ((u <? min) || (q <? min) || (u <? p)) eqn:E2]; cbn [means]; (split; [exact NX|]); (split; [exact NB|]);
    intros g Cx _; rewrite Fd, Forall_app; destruct (F1 g Cx) as [A1 A2].
    - apply andb_true_iff in E1 as [E1 E3]. apply Z.leb_le in E1, E3. split.
      + intros [Q1 Q2]. hyps. cbn [holds] in *. specialize (A1 Q1). split; [lia|]. replace (val g b) with 1 by congruence. symmetry. apply T. lia.
      + intros [Q1 Q2]. specialize (F2 g Cx Q1). split; [auto|]. repeat constructor. cbn [holds]. rewrite Q2. apply T. lia.
    - assert (No : forall z, 0 <= z -> p <= z <= q -> ~ (l <= z <= u)).
      { rewrite !orb_true_iff, !Z.ltb_lt in E2. intros z. lia. }
      split.
      + intros [Q1 Q2]. hyps. cbn [holds] in *. specialize (A1 Q1). split; [lia|]. replace (val g b) with 0 by congruence. symmetry. apply T0, No; lia.
      + intros [Q1 Q2]. specialize (F2 g Cx Q1). split; [auto|]. repeat constructor. cbn [holds]. rewrite Q2. apply T0, No; lia.
    - split.
      + intros [Q1 Q2]. hyps. cbn [holds] in *. specialize (A1 Q1). split; [lia|assumption].
      + intros [Q1 Q2]. specialize (F2 g Cx Q1). split; [auto|]. constructor; [cbn [holds]; rewrite Q2; apply TB|]. constructor; [exact Q2|constructor]. }
  (* B is an integer *)
  assert (Known : forall xw n, is_var xw = true -> means xw (INT n) (fun g => fd_value g xw /\ n = Z.b2z ((l <=? val g xw) && (val g xw <=? u)))
    (if n =? 0 then Posts [New_Variable xw; not_domain xw l u] else if n =? 1 then Domain_Interval xw min u else Fails)).
  { intros xw n V. assert (NX : xw <> OTHER) by (intros ->; discriminate V).
    assert (Fd : forall g, fd_value g xw <-> 0 <= val g xw <= 2 ^ 28 - 1) by (intros g; unfold fd_value; tauto).
    destruct (Z.eqb_spec n 0) as [->|N0]; [|destruct (Z.eqb_spec n 1) as [->|N1]].
    - cbn [means]. split; [exact NX|]. split; [discriminate|]. intros g _ _. rewrite Fd. split.
      + intros F. hyps. cbn [holds] in *. split; [lia|]. symmetry. apply T0. assumption.
      + intros [Q1 Q2]. symmetry in Q2. apply T0 in Q2. constructor; [exact Q1|]. constructor; [exact Q2|constructor].
    - assert (M : forall g, can g xw -> (min <= val g xw <= u <-> fd_value g xw /\ 1 = Z.b2z ((l <=? val g xw) && (val g xw <=? u)))).
      { intros g _. rewrite Fd. split; [intros Q; split; [lia|]; symmetry; apply T; lia|]. intros [Q1 Q2]. symmetry in Q2. apply T in Q2. lia. }
      destruct xw as [v|v p q|k|]; try discriminate V; cbn [Domain_Interval].
      + destruct (Z.ltb_spec u min) as [H|H]; [|destruct (Z.eqb_spec min u) as [E|E]]; cbn [means].
        * intros g Cx _ Q. apply (M g Cx) in Q. lia.
        * split; [discriminate|]. split; [discriminate|]. intros g Cx _. rewrite <- (M g Cx). split; [intros F; hyps; cbn [holds] in *; lia|]. intros Q. repeat constructor. cbn [holds]. lia.
        * split; [discriminate|]. split; [discriminate|]. intros g Cx _. rewrite <- (M g Cx). split; [intros F; hyps; cbn [holds] in *; lia|]. intros Q. repeat constructor; cbn [holds]; lia.
      + cbn [means]. split; [discriminate|]. split; [discriminate|]. intros g Cx _. rewrite <- (M g Cx). split; [intros F; hyps; cbn [holds] in *; lia|]. intros Q. repeat constructor; cbn [holds]; lia.
    - cbn [means]. intros g _ _ [_ Q]. destruct (TB (val g xw)); lia. }
  assert (IntX : forall n bw, x = INT n -> bw <> OTHER -> means (INT n) bw (fun g => fd_value g (INT n) /\ val g bw = Z.b2z ((l <=? n) && (n <=? u)))
     (Posts [Get_Integer (Z.b2z ((min <=? n) && (n <=? u))) bw])).
  { intros n bw E NB. cbn [means]. split; [discriminate|]. split; [exact NB|]. intros g _ _. rewrite (In1 n (Hx n E)). split.
    - intros F. hyps. cbn [holds] in *. split; [intros V; discriminate V|assumption].
    - intros [_ Q]. repeat constructor. exact Q. }
  destruct x as [v|v p q|n|]; [| | |cbn; auto].
  - destruct b as [w|w r t|k|]; [| |apply Known; reflexivity|cbn; auto];
    (apply (Var [New_Variable (REF v)]); [reflexivity|discriminate|lia|unfold INTERVAL_MAX_INTEGER; lia| |]; unfold INTERVAL_MAX_INTEGER; intros g _;
     [split; [intros F; hyps; cbn [holds] in *; lia|intros Q _; repeat constructor; cbn [holds]; lia]|auto]).
  - assert (D : forall g, can g (FDV v p q) -> 0 <= p /\ q <= 2 ^ 28 - 1 /\ p <= g v <= q) by (intros g C; exact C).
    destruct b as [w|w r t|k|]; [| |apply Known; reflexivity|cbn; auto].
    + destruct (Z_le_gt_dec 0 p); [destruct (Z_le_gt_dec q (2 ^ 28 - 1))|]; cbn [bounds].
      * apply (Var []); [reflexivity|discriminate|lia|lia| |]; intros g C; specialize (D g C); cbn [val]; [split; [lia|constructor]|lia].
      * destruct ((min <=? p) && (q <=? u)); [|destruct ((u <? min) || (q <? min) || (u <? p))]; apply absurd_means; try discriminate; intros g0 C0; specialize (D g0 C0); lia.
      * destruct ((min <=? p) && (q <=? u)); [|destruct ((u <? min) || (q <? min) || (u <? p))]; apply absurd_means; try discriminate; intros g0 C0; specialize (D g0 C0); lia.
    + destruct (Z_le_gt_dec 0 p); [destruct (Z_le_gt_dec q (2 ^ 28 - 1))|]; cbn [bounds].
      * apply (Var []); [reflexivity|discriminate|lia|lia| |]; intros g C; specialize (D g C); cbn [val]; [split; [lia|constructor]|lia].
      * destruct ((min <=? p) && (q <=? u)); [|destruct ((u <? min) || (q <? min) || (u <? p))]; apply absurd_means; try discriminate; intros g0 C0; specialize (D g0 C0); lia.
      * destruct ((min <=? p) && (q <=? u)); [|destruct ((u <? min) || (q <? min) || (u <? p))]; apply absurd_means; try discriminate; intros g0 C0; specialize (D g0 C0); lia.
  - destruct b as [w|w r t|k|]; [apply (IntX n (REF w)); congruence|apply (IntX n (FDV w r t)); congruence|apply (IntX n (INT k)); congruence|cbn; auto].
Qed.

(** ** C72_bounds_refuted: bounds that are no FD values are cut to the nearest one: 2^28 - 1 is said to be in 2^40..2^41, and
    fd_domain(X, 2^40, 2^41) has the solution 2^28 - 1 *)
Theorem C72_bounds_refuted : exists n l u, ~ (l <= n <= u) /\ Reified_In (INT n) l u (REF 0) = Posts [Get_Integer 1 (REF 0)] /\
  Domain_Var_3 (REF 0) l u = Posts [Get_Integer n (REF 0)].
Proof. exists (2 ^ 28 - 1), (2 ^ 40), (2 ^ 41). split; [lia|]. split; reflexivity. Qed.
(** ** C72_negative_refuted: -3 is not said to be in -5..5 *)
Theorem C72_negative_refuted : exists n l u, small l /\ small u /\ l <= n <= u /\ Reified_In (INT n) l u (REF 0) = Posts [Get_Integer 0 (REF 0)].
Proof. exists (-3), (-5), 5. unfold small. split; [lia|]. split; [lia|]. split; [lia|reflexivity]. Qed.

Print Assumptions C72_domain.
Print Assumptions C72_reified.
Print Assumptions C72_bounds_refuted.
Print Assumptions C72_negative_refuted.
(** X in 3..9, B a variable; 0..5: neither; 0..9: B = 1; 10..20: B = 0; B = 0 and -7..5 *)
Example C72_ex : let x := FDV 0 3 9 in small (-7) /\ small 20 /\
  Reified_In x 0 5 (REF 1) = Posts [Bool_Var (REF 1); truth_x_in_l_u x 0 5 (REF 1)] /\ Reified_In x 0 9 (REF 1) = Posts [Get_Integer 1 (REF 1)] /\
  Reified_In x 10 20 (REF 1) = Posts [Get_Integer 0 (REF 1)] /\ Reified_In x (-7) 5 (INT 0) = Posts [New_Variable x; not_domain x (-7) 5] /\
  can (fun _ => 4) x /\ holds (fun _ => 4) (truth_x_in_l_u x 5 6 (INT 0)).
Proof. cbv zeta. unfold small. repeat split; try lia. Qed.
