(** C74: the symbolic FD constraints. *)
Require Import ZArith List Bool Lia.
Require Import Verif.Heap_Model Verif.FdRange_Model Verif.FdRange_Spec Verif.FdRange_Proofs Verif.FdRange_Set Verif.FdSymb_Model.
Import ListNotations.
Open Scope Z_scope.

(** ** fd_all_different *)
Definition value (g : nat -> Z) (w : item) : Z := match w with Int z => z | Var v => g v end.
Definition meets (g : nat -> Z) (c : cst) : Prop := match c with x_neq_c x c => g x <> c | x_neq_y x y => g x <> g y end.
(** the solutions of what is posted; of a failure, none *)
Definition sol (g : nat -> Z) (r : option (list cst)) : Prop := match r with None => False | Some l => forall c, In c l -> meets g c end.
Lemma and_then_sol g r1 r2 : sol g (and_then r1 r2) <-> sol g r1 /\ sol g r2.
Proof.
  destruct r1 as [a|], r2 as [b|]; cbn; try tauto. split; [intros H; split; intros c J; apply H, in_app_iff; auto|]. intros [H1 H2] c J. apply in_app_iff in J as [J|J]; auto.
Qed.
Theorem C74_all_different : forall g l, sol g (All_Different l) <-> NoDup (map (value g) l).
Proof.
  intros g l. induction l as [|x l IH]; cbn [All_Different map]; [split; [constructor|intros _ c []]|].
  assert (R : sol g (All_Different_Rec l x) <-> ~ In (value g x) (map (value g) l)).
  { clear IH. induction l as [|w l IH]; cbn [All_Different_Rec map In]; [cbn; tauto|]. rewrite and_then_sol, IH. clear IH.
    enough (E : sol g match x with
               | Int c => match w with Int d => if negb (c =? d) then Some [] else None | Var y => Some [x_neq_c y c] end
               | Var v => match w with Int d => Some [x_neq_c v d] | Var y => Some [x_neq_y v y] end
               end <-> value g w <> value g x) by tauto.
    destruct x as [c|x], w as [d|w]; cbn [value].
    - destruct (Z.eqb_spec c d); cbn [negb sol]; [split; [tauto|congruence]|split; [congruence|intros _ k []]].
    - cbn [sol In]. split; [intros H; exact (H _ (or_introl eq_refl))|intros H k [<-|[]]; exact H].
    - cbn [sol In]. split; [intros H E; exact (H _ (or_introl eq_refl) (eq_sym E))|intros H k [<-|[]] E; exact (H (eq_sym E))].
    - cbn [sol In]. split; [intros H E; exact (H _ (or_introl eq_refl) (eq_sym E))|intros H k [<-|[]] E; exact (H (eq_sym E))]. }
  rewrite and_then_sol, R, IH. split; [intros [A B]; constructor; assumption|]. intros N. inversion N. auto.
Qed.
Example ex_all_different : All_Different [Var 1; Int 3; Var 2] = Some [x_neq_c 1 3; x_neq_y 1 2; x_neq_c 2 3] /\ All_Different [Int 3; Var 1; Int 3] = None.
Proof. split; reflexivity. Qed.

(** ** fd_element *)
(** the integer of number [j] of the list *)
Definition elt (l : list Z) (j x : Z) : Prop := 1 <= j /\ nth_error l (Z.to_nat (j - 1)) = Some x.
Section E.
Variable sz : nat.
Hypothesis small : 64 * Z.of_nat sz <= 2 ^ 28.
Lemma from_to_in a b x : In x (from_to a b) <-> a <= x <= b.
Proof.
  unfold from_to. rewrite in_map_iff. split; [intros (i & <- & J); apply in_seq in J; lia|]. intros H. exists (Z.to_nat (x - a)). split; [lia|]. apply in_seq. lia.
Qed.
Lemma members_ok i : rok sz i -> rmin i <= rmax i -> forall j, In j (members i) <-> rin i j.
Proof.
  intros (P & Q & R) L j. unfold members, rin. destruct (vec i) as [v|]; [|rewrite from_to_in; tauto]. destruct R as [V R]. specialize (R L) as (R1 & R2 & R3).
  destruct (Z.eqb_spec (rmin i) (rmax i)) as [E|E].
  - rewrite from_to_in. split; [intros H; split; [exact H|]; replace j with (rmin i) by lia; exact R1|tauto].
  - rewrite (proj2 (enum_ok v)). split; [intros H; auto|tauto].
Qed.
Lemma rd_ok l j : 1 <= j <= Z.of_nat (length l) -> exists x, rd l j = Ret x /\ elt l j x /\ In x l.
Proof.
  intros H. unfold rd, elt. destruct (Z.eqb_spec j 0); [lia|]. rewrite (proj2 (Z.leb_le 1 j)), (proj2 (Z.leb_le j _)) by lia. cbn [andb].
  exists (nth (Z.to_nat (j - 1)) l 0). split; [reflexivity|]. split; [split; [lia|apply nth_error_nth'; lia]|apply nth_In; lia].
Qed.
Lemma elt_fun l j x y : elt l j x -> elt l j y -> x = y.
Proof. intros [_ A] [_ B]. congruence. Qed.
Lemma set_all_ok l : (forall x, In x l -> 0 <= x <= vmax sz) -> forall js v, vok sz v -> (forall j, In j js -> 1 <= j <= Z.of_nat (length l)) ->
  exists v', set_all l js v = Ret v' /\ vok sz v' /\ forall m, vin v' m = true <-> vin v m = true \/ exists j, In j js /\ elt l j m.
Proof.
  intros F. induction js as [|j js IH]; intros v V B; cbn [set_all].
  - exists v. split; [reflexivity|]. split; [exact V|]. intros m. split; [auto|intros [Q|(j & [] & _)]; exact Q].
  - destruct (rd_ok l j (B j (or_introl eq_refl))) as (x & -> & E & J). cbn [bind]. specialize (F x J) as Fx.
    rewrite to_int_ok by (unfold is_int, INT_MIN, INT_MAX, vmax in *; lia).
    destruct (Set_ok sz small v x V Fx) as (v1 & -> & V1 & I1). cbn [bind].
    destruct (IH v1 V1 (fun k K => B k (or_intror K))) as (v' & -> & V' & I'). exists v'. split; [reflexivity|]. split; [exact V'|].
    intros m. rewrite I', I1, orb_true_iff, Z.eqb_eq. split.
    + intros [[->|Q]|(k & K & Ek)]; [right; exists j; split; [left; reflexivity|exact E]|auto|right; exists k; split; [right; exact K|exact Ek]].
    + intros [Q|(k & [<-|K] & Ek)]; [auto|left; left; exact (elt_fun _ _ _ _ Ek E)|right; exists k; auto].
Qed.
(** When I changed: V gets the integers whose numbers are in the domain of I; the mark is what was in the memory *)
Theorem C74_i_to_v : forall a e p q i l, around_ok a -> INT_MIN < p <= INT_MAX -> rok sz i -> rmin i <= rmax i ->
  (forall j, rin i j -> 1 <= j <= Z.of_nat (length l)) -> (forall x, In x l -> 0 <= x <= vmax sz) ->
  exists r, Element_I_To_V sz a e p q i l = Ret r /\ rok sz r /\ extra_cstr r = e /\ forall x, rin r x <-> exists j, rin i j /\ elt l j x.
Proof.
  intros a e p q i l A P R L B F. destruct (Empty_ok sz) as [V0 I0]. unfold Element_I_To_V.
  destruct (set_all_ok l F (members i) (Vector_Empty sz) V0) as (v & -> & V & I); [intros j J; apply B, (members_ok i R L), J|]. cbn [bind].
  destruct (From_Vector_ok sz small a e p q v A V P) as (r & E & _ & Er & Rr & Ir). exists r. split; [exact E|]. split; [exact Rr|]. split; [exact Er|].
  intros x. rewrite Ir, I, I0. split.
  - intros [Q|(j & J & Ej)]; [discriminate|]. exists j. split; [apply (members_ok i R L), J|exact Ej].
  - intros (j & J & Ej). right. exists j. split; [apply (members_ok i R L), J|exact Ej].
Qed.
Lemma set_those_ok v l : rok sz v -> (forall x, In x l -> is_int x) -> forall js w, vok sz w -> (forall j, In j js -> 1 <= j <= Z.of_nat (length l) /\ j <= vmax sz) ->
  exists w', set_those v l js w = Ret w' /\ vok sz w' /\ forall m, vin w' m = true <-> vin w m = true \/ (In m js /\ exists x, elt l m x /\ rin v x).
Proof.
  intros R F. induction js as [|j js IH]; intros w W B; cbn [set_those].
  - exists w. split; [reflexivity|]. split; [exact W|]. intros m. split; [auto|intros [Q|([] & _)]; exact Q].
  - destruct (B j (or_introl eq_refl)) as [Bj Bv]. destruct (rd_ok l j Bj) as (x & -> & E & J). cbn [bind]. rewrite to_int_ok by (apply F, J).
    destruct (Test_Value_ok sz small v x R) as (b & -> & Tb). cbn [bind].
    assert (S : exists w1, (if b then Vector_Set_Value w j else Ret w) = Ret w1 /\ vok sz w1 /\ forall m, vin w1 m = true <-> vin w m = true \/ (m = j /\ b = true)).
    { destruct b.
      - destruct (Set_ok sz small w j W ltac:(lia)) as (w1 & E1 & W1 & I1). exists w1. split; [exact E1|]. split; [exact W1|]. intros m. rewrite I1, orb_true_iff, Z.eqb_eq. tauto.
      - exists w. split; [reflexivity|]. split; [exact W|]. intros m. intuition discriminate. }
    destruct S as (w1 & -> & W1 & I1). cbn [bind]. destruct (IH w1 W1 (fun k K => B k (or_intror K))) as (w' & -> & W' & I'). exists w'. split; [reflexivity|]. split; [exact W'|].
    intros m. rewrite I', I1. split.
    + intros [[Q|[-> Q]]|[K Q]]; [auto|right; split; [left; reflexivity|exists x; split; [exact E|apply Tb, Q]]|right; split; [right; exact K|exact Q]].
    + intros [Q|[[<-|K] Q]]; [auto| |auto]. destruct Q as (y & Ey & Ry). rewrite <- (elt_fun _ _ _ _ E Ey) in Ry. left. right. split; [reflexivity|apply Tb, Ry].
Qed.
(** When V changed: I gets the numbers of the integers that are in the domain of V *)
Theorem C74_v_to_i : forall a e p q v l, around_ok a -> INT_MIN < p <= INT_MAX -> rok sz v -> (forall x, In x l -> is_int x) -> Z.of_nat (length l) <= vmax sz ->
  exists r, Element_V_To_I sz a e p q v l = Ret r /\ rok sz r /\ extra_cstr r = e /\ forall j, rin r j <-> exists x, elt l j x /\ rin v x.
Proof.
  intros a e p q v l A P R F Ln. destruct (Empty_ok sz) as [V0 I0]. unfold Element_V_To_I.
  destruct (set_those_ok v l R F (from_to 1 (Z.of_nat (length l))) (Vector_Empty sz) V0) as (w & -> & W & I); [intros j J; apply from_to_in in J; lia|]. cbn [bind].
  destruct (From_Vector_ok sz small a e p q w A W P) as (r & E & _ & Er & Rr & Ir). exists r. split; [exact E|]. split; [exact Rr|]. split; [exact Er|].
  intros j. rewrite Ir, I, I0, from_to_in. split; [intros [Q|[_ Q]]; [discriminate|exact Q]|]. intros (x & Ex & Rx). right. split; [|exists x; auto].
  destruct Ex as [L E']. assert (Z.to_nat (j - 1) < length l)%nat by (apply nth_error_Some; congruence). lia.
Qed.
(** ** fd_element_var *)
Definition eltr (l : list range) (j : Z) (d : range) : Prop := 1 <= j /\ nth_error l (Z.to_nat (j - 1)) = Some d.
Lemma rdr_ok l j : 1 <= j <= Z.of_nat (length l) -> exists d, rdr l j = Ret d /\ eltr l j d /\ In d l.
Proof.
  intros H. unfold rdr, eltr. rewrite (proj2 (Z.leb_le 1 j)), (proj2 (Z.leb_le j _)) by lia. cbn [andb].
  exists (nth (Z.to_nat (j - 1)) l (Range false 0 0 None)). split; [reflexivity|]. split; [split; [lia|apply nth_error_nth'; lia]|apply nth_In; lia].
Qed.
Lemma eltr_fun l j x y : eltr l j x -> eltr l j y -> x = y.
Proof. intros [_ A] [_ B]. congruence. Qed.
(** the domain of a variable *)
Definition dom_ok (d : range) : Prop := rok sz d /\ rmin d <= rmax d /\ rmax d <= IMAX.
Lemma below_max r T : rok sz r -> means sz r T -> (forall x, T x -> x <= IMAX) -> rmax r < INT_MAX.
Proof.
  intros (P & Q & R) M B. destruct (Z_lt_le_dec (rmax r) (rmin r)); [lia|]. destruct (Z_lt_le_dec (rmax r) 0); [unfold INT_MAX; lia|].
  destruct (vec r) as [v|] eqn:E.
  - destruct R as [V R]. destruct (R l) as (_ & R2 & _). pose proof (vin_range _ _ _ V R2) as H. unfold vmax in H. unfold INT_MAX. lia.
  - assert (X : T (rmax r)) by (apply (M (rmax r)); [lia|left; exact R|unfold rin; rewrite E; split; [lia|exact I]]). specialize (B _ X). unfold IMAX in B. unfold INT_MAX. lia.
Qed.
Lemma union_all_ok junk junk1 l : vok sz junk -> vok sz junk1 -> (forall d, In d l -> dom_ok d) -> forall js v T, rok sz v -> means sz v T -> (forall x, T x -> x <= IMAX) ->
  (forall j, In j js -> 1 <= j <= Z.of_nat (length l)) ->
  exists r, union_all sz junk junk1 l js v = Ret r /\ rok sz r /\ means sz r (fun x => T x \/ exists j d, In j js /\ eltr l j d /\ rin d x).
Proof.
  intros J J1 F. induction js as [|j js IH]; intros v T V M B Bj; cbn [union_all].
  - exists v. split; [reflexivity|]. split; [exact V|]. intros x Hx Hb. rewrite (M x Hx Hb). split; [auto|]. intros [Q|(j & d & [] & _)]. exact Q.
  - destruct (rdr_ok l j (Bj j (or_introl eq_refl))) as (d & -> & E & Jd). cbn [bind]. destruct (F d Jd) as (Rd & Ld & Bd).
    assert (Md : means sz d (rin d)) by (intros x _ _; tauto).
    destruct (Union_ok sz small junk junk1 v d T (rin d) J J1 V Rd M Md) as (v1 & -> & V1 & M1); [apply (below_max v T); assumption|unfold IMAX in Bd; unfold INT_MAX; lia|]. cbn [bind].
    destruct (IH v1 _ V1 M1) as (r & -> & R & Mr).
    + intros x [Q|[Q _]]; [apply B, Q|lia].
    + intros k K. apply Bj. right. exact K.
    + exists r. split; [reflexivity|]. split; [exact R|]. intros x Hx Hb. rewrite (Mr x Hx Hb). split.
      * intros [[Q|Q]|(k & d' & K & E' & Q)]; [auto|right; exists j, d; split; [left; reflexivity|auto]|right; exists k, d'; split; [right; exact K|auto]].
      * intros [Q|(k & d' & [<-|K] & E' & Q)]; [auto|left; right; rewrite (eltr_fun _ _ _ _ E E'); exact Q|right; exists k, d'; auto].
Qed.
(** When I or a variable of the list changed: V gets what is in the domains of the variables whose numbers are in the domain of I *)
Theorem C74_var_i_to_v : forall junk junk1 p q i l, vok sz junk -> vok sz junk1 -> INT_MIN < p <= INT_MAX -> rok sz i -> rmin i <= rmax i ->
  (forall j, rin i j -> 1 <= j <= Z.of_nat (length l)) -> (forall d, In d l -> dom_ok d) ->
  exists r, Element_Var_I_To_V sz junk junk1 p q i l = Ret r /\ rok sz r /\ means sz r (fun x => exists j d, rin i j /\ eltr l j d /\ rin d x).
Proof.
  intros junk junk1 p q i l J J1 P R L B F. unfold Element_Var_I_To_V.
  destruct (union_all_ok junk junk1 l J J1 F (members i) (Set_To_Empty (Range false p q None)) (fun _ => False)) as (r & -> & Rr & M).
  - unfold rok, Set_To_Empty, is_int. cbn [rmin rmax vec extra_cstr]. split; [exact P|]. split; [unfold INT_MIN, INT_MAX; lia|reflexivity].
  - intros x Hx _. unfold rin, Set_To_Empty. cbn [rmin rmax vec]. split; [|tauto]. unfold INT_MIN in *. lia.
  - tauto.
  - intros j Jj. apply B, (members_ok i R L), Jj.
  - exists r. split; [reflexivity|]. split; [exact Rr|]. intros x Hx Hb. rewrite (M x Hx Hb). split.
    + intros [[]|(j & d & Jj & Q)]. exists j, d. split; [apply (members_ok i R L), Jj|exact Q].
    + intros (j & d & Jj & Q). right. exists j, d. split; [apply (members_ok i R L), Jj|exact Q].
Qed.
Lemma meet_those_ok v l : dom_ok v -> (forall d, In d l -> dom_ok d) -> forall js w, vok sz w -> (forall j, In j js -> 1 <= j <= Z.of_nat (length l) /\ j <= vmax sz) ->
  exists w', meet_those v l js w = Ret w' /\ vok sz w' /\ forall m, vin w' m = true <-> vin w m = true \/ (In m js /\ exists d, eltr l m d /\ exists x, rin d x /\ rin v x).
Proof.
  intros (R & L & _) F. induction js as [|j js IH]; intros w W B; cbn [meet_those].
  - exists w. split; [reflexivity|]. split; [exact W|]. intros m. split; [auto|intros [Q|([] & _)]; exact Q].
  - destruct (B j (or_introl eq_refl)) as [Bj Bv]. destruct (rdr_ok l j Bj) as (d & -> & E & Jd). cbn [bind]. destruct (F d Jd) as (Rd & Ld & _).
    destruct (Test_Null_Inter_ok sz small d v Rd R Ld L) as (b & -> & Tb). cbn [bind].
    assert (S : exists w1, (if negb b then Vector_Set_Value w j else Ret w) = Ret w1 /\ vok sz w1 /\ forall m, vin w1 m = true <-> vin w m = true \/ (m = j /\ b = false)).
    { destruct b; cbn [negb].
      - exists w. split; [reflexivity|]. split; [exact W|]. intros m. intuition discriminate.
      - destruct (Set_ok sz small w j W ltac:(lia)) as (w1 & E1 & W1 & I1). exists w1. split; [exact E1|]. split; [exact W1|]. intros m. rewrite I1, orb_true_iff, Z.eqb_eq. tauto. }
    destruct S as (w1 & -> & W1 & I1). cbn [bind]. destruct (IH w1 W1 (fun k K => B k (or_intror K))) as (w' & -> & W' & I'). exists w'. split; [reflexivity|]. split; [exact W'|].
    assert (Fb : b = false <-> exists x, rin d x /\ rin v x).
    { destruct b; [split; [discriminate|intros X; destruct (proj1 Tb eq_refl X)]|split; [|reflexivity]]. intros _.
      assert (Dec : (exists x, In x (members d) /\ rin v x) \/ ~ exists x, In x (members d) /\ rin v x).
      { generalize (members d). intros k. induction k as [|y k IHk]; [right; intros (x & [] & _)|]. destruct (Test_Value_ok sz small v y R) as ([|] & _ & Ty).
        - left. exists y. split; [left; reflexivity|apply Ty; reflexivity].
        - destruct IHk as [(x & Q1 & Q2)|N]; [left; exists x; split; [right; exact Q1|exact Q2]|right]. intros (x & [<-|Q1] & Q2); [apply Ty in Q2; discriminate|apply N; exists x; auto]. }
      destruct Dec as [(x & Q1 & Q2)|N]; [exists x; split; [apply (members_ok d Rd Ld), Q1|exact Q2]|]. exfalso. enough (false = true) by discriminate. apply Tb. intros (x & Q1 & Q2). apply N. exists x. split; [apply (members_ok d Rd Ld), Q1|exact Q2]. }
    intros m. rewrite I', I1. split.
    + intros [[Q|[-> Q]]|[K Q]]; [auto|right; split; [left; reflexivity|exists d; split; [exact E|apply Fb, Q]]|right; split; [right; exact K|exact Q]].
    + intros [Q|[[<-|K] Q]]; [auto| |auto]. destruct Q as (y & Ey & Ry). rewrite <- (eltr_fun _ _ _ _ E Ey) in Ry. left. right. split; [reflexivity|apply Fb, Ry].
Qed.
(** When V or a variable of the list changed: I gets the numbers of the variables whose domains meet that of V *)
Theorem C74_var_v_to_i : forall a e p q v l, around_ok a -> INT_MIN < p <= INT_MAX -> dom_ok v -> (forall d, In d l -> dom_ok d) -> Z.of_nat (length l) <= vmax sz ->
  exists r, Element_Var_V_To_I sz a e p q v l = Ret r /\ rok sz r /\ forall j, rin r j <-> exists d, eltr l j d /\ exists x, rin d x /\ rin v x.
Proof.
  intros a e p q v l A P D F Ln. destruct (Empty_ok sz) as [V0 I0]. unfold Element_Var_V_To_I.
  destruct (meet_those_ok v l D F (from_to 1 (Z.of_nat (length l))) (Vector_Empty sz) V0) as (w & -> & W & I); [intros j J; apply from_to_in in J; lia|]. cbn [bind].
  destruct (From_Vector_ok sz small a e p q w A W P) as (r & E & _ & Er & Rr & Ir). exists r. split; [exact E|]. split; [exact Rr|].
  intros j. rewrite Ir, I, I0, from_to_in. split; [intros [Q|[_ Q]]; [discriminate|exact Q]|]. intros (d & Ex & Rx). right. split; [|exists d; auto].
  destruct Ex as [L E']. assert (Z.to_nat (j - 1) < length l)%nat by (apply nth_error_Some; congruence). lia.
Qed.
End E.
Example ex_element_var : exists v w, Element_Var_I_To_V 2 [0; 0] [0; 0] 7 7 (Range_Interval 2 3) [Range_Interval 1 2; Range_Interval 4 5; Range_Interval 9 10] = Ret (Range false 4 10 (Some v)) /\ vin v 6 = false /\
  Element_Var_V_To_I 2 (Around 0 []) false 0 0 (Range_Interval 5 9) [Range_Interval 1 2; Range_Interval 4 5; Range_Interval 9 10] = Ret (Range false 2 3 (Some w)).
Proof. do 2 eexists. vm_compute. auto. Qed.
(** An integer of the list that does not fit in a vector is written outside of it (vectors for 0 to 127) *)
Theorem C74_write_refuted : exists i l, rok 2 i /\ (forall j, rin i j -> 1 <= j <= Z.of_nat (length l)) /\ Element_I_To_V 2 (Around 0 []) false 0 0 i l = UB.
Proof.
  exists (Range_Interval 1 2), [5; 200]. split; [|split].
  - split; [cbn; unfold INT_MIN, INT_MAX; lia|]. split; [cbn; unfold is_int, INT_MIN, INT_MAX; lia|reflexivity].
  - intros j [H _]. exact H.
  - reflexivity.
Qed.
(** The mark of the result depends on the memory *)
Theorem C74_mark_refuted : exists i l r r', Element_I_To_V 2 (Around 0 []) false 0 0 i l = Ret r /\ Element_I_To_V 2 (Around 0 []) true 0 0 i l = Ret r' /\ extra_cstr r <> extra_cstr r'.
Proof. exists (Range_Interval 1 2), [5; 7]. do 2 eexists. split; [reflexivity|]. split; [reflexivity|]. discriminate. Qed.
Example ex_element : exists v, Element_V_To_I 2 (Around 0 []) false 0 0 (Range_Interval 6 9) [5; 7; 20; 9] = Ret (Range false 2 4 (Some v)) /\ vin v 3 = false.
Proof. eexists. vm_compute. auto. Qed.

(** ** fd_atmost, fd_atleast, fd_exactly *)
(** the number of variables with value [v] *)
Definition occ (v : Z) (xs : list Z) : Z := Z.of_nat (count_occ Z.eq_dec xs v).
(** [x] is in the domain, as far as the cell tells *)
Definition allows (v : Z) (c : cell) (x : Z) : Prop := (forall z, known c = Some z -> x = z) /\ (has c = false -> x <> v).
Definition cell_ok (v : Z) (c : cell) : Prop := forall z, known c = Some z -> has c = (z =? v).
Definition obeys (v : Z) (xs : list Z) (t : tell) : Prop :=
  match t with Not_Value i => exists x, nth_error xs i = Some x /\ x <> v | Value i => nth_error xs i = Some v end.
(** the result loses no solution, and when all variables are known only solutions are let through *)
Definition right (C : list Z -> Prop) (v : Z) (l : list cell) (r : option (list tell)) : Prop :=
  (forall xs, Forall2 (allows v) l xs -> C xs -> exists ts, r = Some ts /\ forall t, In t ts -> obeys v xs t) /\
  (forall xs, Forall2 (fun c x => known c = Some x) l xs -> r <> None -> C xs).
Definition nb1 v l := count (is_v v) l.
Definition nb2 (l : list cell) := count has l.
Lemma count_cons f c l : count f (c :: l) = (if f c then 1 else 0) + count f l.
Proof. unfold count. cbn [filter]. destruct (f c); cbn [length]; lia. Qed.
Lemma occ_cons v x xs : occ v (x :: xs) = (if x =? v then 1 else 0) + occ v xs.
Proof. unfold occ. cbn [count_occ]. destruct (Z.eq_dec x v), (Z.eqb_spec x v); try contradiction; lia. Qed.
Lemma bounds v l xs : Forall2 (allows v) l xs -> nb1 v l <= occ v xs <= nb2 l.
Proof.
  unfold nb1, nb2. induction 1 as [|c x l xs [K H] _ IH]; [cbn; lia|]. rewrite !count_cons, occ_cons. unfold is_v at 1.
  destruct (Z.eqb_spec x v) as [->|N].
  - destruct (has c) eqn:E; [|destruct (H eq_refl eq_refl)]. destruct (known c) as [z|]; [destruct (z =? v); lia|lia].
  - destruct (known c) as [z|]; [|destruct (has c); lia]. rewrite (K z eq_refl) in N. destruct (Z.eqb_spec z v); [contradiction|]. destruct (has c); lia.
Qed.
Lemma tells_at mk f (ob : Z -> Prop) v : (forall xs i x, nth_error xs i = Some x -> ob x -> obeys v xs (mk i)) -> forall l xs pre, Forall2 (fun c x => f c = true -> ob x) l xs ->
  forall t, In t (tell_all mk f (length pre) l) -> obeys v (pre ++ xs) t.
Proof.
  intros O l. induction l as [|c l IH]; intros xs pre F t J; [destruct J|]. inversion F as [|? x ? ys Fx Fs]; subst. cbn [tell_all] in J. apply in_app_iff in J as [J|J].
  - destruct (f c) eqn:E; [|destruct J]. destruct J as [<-|[]]. apply (O _ _ x); [|apply Fx; reflexivity]. rewrite nth_error_app2, Nat.sub_diag by lia. reflexivity.
  - specialize (IH ys (pre ++ [x]) Fs t). rewrite app_length, Nat.add_1_r, <- app_assoc in IH. apply IH, J.
Qed.
Lemma at_low v l xs : Forall2 (allows v) l xs -> occ v xs = nb1 v l -> Forall2 (fun c x => negb (ground c) = true -> x <> v) l xs.
Proof.
  unfold nb1. induction 1 as [|c x l xs [K H] A IH]; [constructor|]. rewrite count_cons, occ_cons. pose proof (bounds v l xs A) as [B _]. unfold nb1 in B. unfold is_v at 1, ground.
  intros E. destruct (known c) as [z|] eqn:Ek.
  - rewrite (K z eq_refl) in E. constructor; [rewrite Ek; discriminate|apply IH; lia].
  - destruct (Z.eqb_spec x v); [lia|]. constructor; [auto|apply IH; lia].
Qed.
Lemma at_high v l xs : Forall2 (allows v) l xs -> occ v xs = nb2 l -> Forall2 (fun c x => has c = true -> x = v) l xs.
Proof.
  unfold nb2. induction 1 as [|c x l xs [K H] A IH]; [constructor|]. rewrite count_cons, occ_cons. pose proof (bounds v l xs A) as [_ B]. unfold nb2 in B.
  intros E. destruct (Z.eqb_spec x v) as [->|N]; [destruct (has c); [|destruct (H eq_refl eq_refl)]; constructor; [auto|apply IH; lia]|].
  destruct (has c) eqn:Eh; [lia|]. constructor; [congruence|apply IH; lia].
Qed.
Lemma tells_low v l xs : Forall2 (allows v) l xs -> occ v xs = nb1 v l -> forall t, In t (tell_all Not_Value (fun c => negb (ground c)) 0 l) -> obeys v xs t.
Proof. intros A E. apply (tells_at Not_Value (fun c => negb (ground c)) (fun x => x <> v) v (fun ys i x Q N => ex_intro _ x (conj Q N)) l xs []). apply at_low; assumption. Qed.
Lemma tells_high v l xs : Forall2 (allows v) l xs -> occ v xs = nb2 l -> forall t, In t (tell_all Value has 0 l) -> obeys v xs t.
Proof. intros A E. apply (tells_at Value has (fun x => x = v) v ltac:(intros ys i x Q ->; exact Q) l xs []). apply at_high; assumption. Qed.
Lemma all_known v l xs : Forall (cell_ok v) l -> Forall2 (fun c x => known c = Some x) l xs -> nb1 v l = occ v xs /\ nb2 l = occ v xs.
Proof.
  unfold nb1, nb2. intros O F. induction F as [|c x l xs K F IH]; [auto|]. inversion O as [|? ? Oc Ol]; subst. rewrite !count_cons, occ_cons. unfold is_v at 1. rewrite (Oc x K), K. destruct (IH Ol). lia.
Qed.
Lemma rest_count l : Z.of_nat (length l) - count (fun c => negb (has c)) l = nb2 l.
Proof. unfold nb2. induction l as [|c l IH]; [reflexivity|]. rewrite !count_cons. cbn [length]. destruct (has c); cbn [negb]; lia. Qed.
Lemma rest_count2 v l : Forall (cell_ok v) l -> Z.of_nat (length l) - count (fun c => negb (is_v v c) && negb (has c)) l = nb2 l.
Proof.
  unfold nb2. induction 1 as [|c l Oc _ IH]; [reflexivity|]. rewrite !count_cons. cbn [length]. unfold is_v at 1. destruct (known c) as [z|] eqn:K.
  - rewrite (Oc z K). destruct (z =? v); cbn [negb andb]; lia.
  - destruct (has c); cbn [negb andb]; lia.
Qed.
Theorem C74_atmost : forall n l v, Forall (cell_ok v) l -> right (fun xs => occ v xs <= n) v l (Atmost n l v).
Proof.
  intros n l v O. unfold Atmost. fold (nb1 v l). split.
  - intros xs A H. pose proof (bounds v l xs A). destruct (Z.ltb_spec n (nb1 v l)); [lia|]. destruct (Z.eqb_spec (nb1 v l) n) as [E|E].
    + eexists. split; [reflexivity|]. apply tells_low; [exact A|lia].
    + exists []. split; [reflexivity|]. intros t [].
  - intros xs A. destruct (all_known v l xs O A) as [E _]. destruct (Z.ltb_spec n (nb1 v l)); [congruence|]. intros _. lia.
Qed.
Theorem C74_atleast : forall n l v, Forall (cell_ok v) l -> right (fun xs => n <= occ v xs) v l (Atleast n l v).
Proof.
  intros n l v O. unfold Atleast. rewrite rest_count. cbv zeta. split.
  - intros xs A H. pose proof (bounds v l xs A). destruct (Z.ltb_spec (nb2 l) n); [lia|]. destruct (Z.eqb_spec (nb2 l) n) as [E|E].
    + eexists. split; [reflexivity|]. apply tells_high; [exact A|lia].
    + exists []. split; [reflexivity|]. intros t [].
  - intros xs A. destruct (all_known v l xs O A) as [_ E]. destruct (Z.ltb_spec (nb2 l) n); [congruence|]. intros _. lia.
Qed.
Theorem C74_exactly : forall n l v, Forall (cell_ok v) l -> right (fun xs => occ v xs = n) v l (Exactly n l v).
Proof.
  intros n l v O. unfold Exactly. rewrite (rest_count2 v l O). fold (nb1 v l). cbv zeta. split.
  - intros xs A H. pose proof (bounds v l xs A). destruct (Z.ltb_spec n (nb1 v l)); [lia|]. destruct (Z.ltb_spec (nb2 l) n); [lia|]. cbn [orb]. destruct (Z.eqb_spec (nb1 v l) n) as [E|E].
    + eexists. split; [reflexivity|]. apply tells_low; [exact A|lia].
    + destruct (Z.eqb_spec (nb2 l) n) as [E2|E2]; [eexists; split; [reflexivity|]; apply tells_high; [exact A|lia]|]. exists []. split; [reflexivity|]. intros t [].
  - intros xs A. destruct (all_known v l xs O A) as [E E2]. destruct (Z.ltb_spec n (nb1 v l)); [cbn; congruence|]. destruct (Z.ltb_spec (nb2 l) n); [cbn; congruence|]. intros _. lia.
Qed.
(** What follows is told: when [n] variables have the value, the others are told not to have it; when only [n] can have it, they are told to *)
Lemma tell_all_in mk f : forall l k i c, nth_error l i = Some c -> f c = true -> In (mk (k + i)%nat) (tell_all mk f k l).
Proof.
  induction l as [|d l IH]; intros k [|i] c E F; try discriminate E; cbn [tell_all nth_error] in *; apply in_app_iff.
  - injection E as ->. left. rewrite F, Nat.add_0_r. left. reflexivity.
  - right. rewrite <- Nat.add_succ_comm. apply (IH (S k) i c E F).
Qed.
Theorem C74_told : forall n l v r, Forall (cell_ok v) l ->
  (r = Atmost n l v \/ r = Exactly n l v -> nb1 v l = n -> nb1 v l <= nb2 l -> exists ts, r = Some ts /\ forall i c, nth_error l i = Some c -> known c = None -> In (Not_Value i) ts) /\
  (r = Atleast n l v \/ r = Exactly n l v /\ nb1 v l < n -> nb2 l = n -> exists ts, r = Some ts /\ forall i c, nth_error l i = Some c -> has c = true -> In (Value i) ts).
Proof.
  intros n l v r O. split.
  - intros H E Le. exists (tell_all Not_Value (fun c => negb (ground c)) 0 l). split.
    + destruct H as [->| ->]; unfold Atmost, Exactly; fold (nb1 v l); rewrite ?(rest_count2 v l O); rewrite E, Z.ltb_irrefl, Z.eqb_refl; [reflexivity|]. cbn [orb].
      destruct (Z.ltb_spec (nb2 l) n); [lia|reflexivity].
    + intros i c Q K. apply (tell_all_in Not_Value _ l 0 i c Q). unfold ground. rewrite K. reflexivity.
  - intros H E. exists (tell_all Value has 0 l). split.
    + destruct H as [->|[-> L]]; unfold Atleast, Exactly; [rewrite rest_count|fold (nb1 v l); rewrite (rest_count2 v l O)]; rewrite E, Z.ltb_irrefl, Z.eqb_refl; [reflexivity|].
      destruct (Z.ltb_spec n (nb1 v l)); [lia|]. cbn [orb]. destruct (Z.eqb_spec (nb1 v l) n); [lia|reflexivity].
    + intros i c Q K. apply (tell_all_in Value has l 0 i c Q K).
Qed.
Definition ex_cells := [Cell (Some 3) true; Cell None true; Cell (Some 4) false; Cell None false].
Example ex_counts : Atmost 1 ex_cells 3 = Some [Not_Value 1; Not_Value 3] /\ Atmost 0 ex_cells 3 = None /\ Atleast 2 ex_cells 3 = Some [Value 0; Value 1] /\
  Atleast 3 ex_cells 3 = None /\ Exactly 2 ex_cells 3 = Some [Value 0; Value 1] /\ Exactly 1 ex_cells 3 = Some [Not_Value 1; Not_Value 3].
Proof. repeat split. Qed.
Print Assumptions C74_all_different.
Print Assumptions C74_i_to_v.
Print Assumptions C74_v_to_i.
Print Assumptions C74_exactly.
Print Assumptions C74_told.
Print Assumptions C74_var_i_to_v.
Print Assumptions C74_var_v_to_i.
