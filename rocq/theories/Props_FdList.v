(** C73: the range of a list of integers. *)
Require Import ZArith List Bool Lia.
Require Import Verif.Heap_Model Verif.FdRange_Model Verif.FdRange_Spec Verif.FdRange_Proofs Verif.FdIn_Model Verif.FdList_Model.
Import ListNotations.
Open Scope Z_scope.

Section P.
Variable sz : nat.
Hypothesis small : 64 * Z.of_nat sz < 2 ^ 28.
Hypothesis pos : (0 < sz)%nat.
Lemma small' : 64 * Z.of_nat sz <= 2 ^ 28. Proof. lia. Qed.
Definition fits (x : Z) : Prop := 0 <= x <= vmax sz.
Lemma test_ok x : let val := Prolog_To_Value x in
  if unsigned (vmax sz) <? unsigned val then ~ fits x else fits x /\ val = x.
Proof.
  unfold fits, unsigned, vmax, Prolog_To_Value, INTERVAL_MAX_INTEGER. cbv zeta. rewrite (Z.mod_small (64 * Z.of_nat sz - 1)) by lia.
  destruct (Z.ltb_spec x (- (2 ^ 28 - 1))) as [A|A].
  - replace (2 ^ 28 - 1 <? - (2 ^ 28 - 1)) with false by reflexivity. change ((- (2 ^ 28 - 1)) mod 2 ^ 32) with 4026531841. destruct (Z.ltb_spec (64 * Z.of_nat sz - 1) 4026531841); lia.
  - destruct (Z.ltb_spec (2 ^ 28 - 1) x) as [B|B].
    + change ((2 ^ 28 - 1) mod 2 ^ 32) with (2 ^ 28 - 1). destruct (Z.ltb_spec (64 * Z.of_nat sz - 1) (2 ^ 28 - 1)); lia.
    + destruct (Z.ltb_spec x 0) as [N|N].
      * rewrite <- (Z.mod_add x 1), Z.mod_small by lia. destruct (Z.ltb_spec (64 * Z.of_nat sz - 1) (x + 1 * 2 ^ 32)); lia.
      * rewrite Z.mod_small by lia. destruct (Z.ltb_spec (64 * Z.of_nat sz - 1) x); lia.
Qed.
Lemma put_ok : forall l e v n, vok sz v -> exists e' v' n', put sz l e v n = Ret (e', v', n') /\ vok sz v' /\
  (forall m, vin v' m = true <-> vin v m = true \/ (In m l /\ fits m)) /\
  (e' = true <-> e = true \/ exists x, In x l /\ ~ fits x) /\ (n' = 0%nat <-> n = 0%nat /\ forall x, In x l -> ~ fits x).
Proof.
  induction l as [|x l IH]; intros e v n V; cbn [put].
  - exists e, v, n. split; [reflexivity|]. split; [exact V|]. cbn [In]. split; [intros m; tauto|]. split; [|tauto]. split; [auto|]. intros [Q|(y & [] & _)]. exact Q.
  - pose proof (test_ok x) as T. cbv zeta in *. destruct (unsigned (vmax sz) <? unsigned (Prolog_To_Value x)).
    + destruct (IH true v n V) as (e' & v' & n' & E & V' & I & X & N). exists e', v', n'. split; [exact E|]. split; [exact V'|]. split; [|split].
      * intros m. rewrite I. cbn [In]. split; [tauto|]. intros [Q|[[->|Q] F]]; [auto|destruct (T F)|auto].
      * rewrite X. split; [intros _; right; exists x; split; [left; reflexivity|exact T]|auto].
      * rewrite N. split; intros [Q1 Q2]; (split; [exact Q1|]); intros y J; [destruct J as [<-|J]; [exact T|auto]|apply Q2; right; exact J].
    + destruct T as [F Ev]. rewrite Ev. destruct (Set_ok sz small' v x V F) as (v1 & -> & V1 & I1). cbn [bind].
      destruct (IH e v1 (S n) V1) as (e' & v' & n' & E & V' & I & X & N). exists e', v', n'. split; [exact E|]. split; [exact V'|]. split; [|split].
      * intros m. rewrite I, I1, orb_true_iff, Z.eqb_eq. cbn [In]. split; [intros [[->|Q]|[Q1 Q2]]; auto|intros [Q|[[->|Q] F']]; auto].
      * rewrite X. split; (intros [Q|(y & J & NF)]; [auto|right; exists y]); [split; [right; exact J|exact NF]|]. destruct J as [<-|J]; [destruct (NF F)|auto].
      * rewrite N. split; [intros [Q _]; discriminate Q|]. intros [_ Q]. destruct (Q x (or_introl eq_refl) F).
Qed.
Lemma empty_ok : vok sz (Vector_Empty sz) /\ forall m, vin (Vector_Empty sz) m = false.
Proof.
  unfold Vector_Empty. split.
  - split; [apply repeat_length|]. apply Forall_forall. intros w J. apply repeat_spec in J. lia.
  - intros m. unfold vin. rewrite nth_repeat, Z.bits_0. apply andb_false_r.
Qed.
(** ** C73_list: the range has the members of the list which fit in a vector; it is marked as incomplete exactly when there are others *)
Theorem C73_list : forall a p q l, around_ok a -> INT_MIN < p <= INT_MAX ->
  exists r, List_Int_To_Range sz a p q l = Ret r /\ rok sz r /\ means sz r (fun n => In n l) /\ (forall n, rin r n -> In n l) /\
    (extra_cstr r = true <-> exists x, In x l /\ ~ (0 <= x <= vmax sz)).
Proof.
  intros a p q l A P. destruct empty_ok as [V0 I0]. unfold List_Int_To_Range. destruct (put_ok l false (Vector_Empty sz) 0 V0) as (e & v & n & -> & V & I & X & N). cbn [bind].
  assert (I' : forall m, vin v m = true <-> In m l /\ fits m) by (intros m; rewrite I, I0; intuition congruence).
  assert (X' : e = true <-> exists x, In x l /\ ~ fits x) by (rewrite X; intuition congruence).
  assert (M : forall r, extra_cstr r = e -> (forall m, rin r m <-> vin v m = true) -> means sz r (fun n => In n l) /\ (forall n, rin r n -> In n l)).
  { intros r Er Ir. split; [|intros m J; apply Ir, I' in J; tauto]. intros m Hm Hb. rewrite Ir, I'. split; [tauto|]. intros J. split; [exact J|].
    destruct Hb as [Hb|Hb]; [|unfold fits; lia]. unfold fits. destruct (Z_le_gt_dec m (vmax sz)); [lia|]. exfalso.
    rewrite Er in Hb. enough (e = true) by congruence. apply X'. exists m. unfold fits. split; [exact J|lia]. }
  destruct (Nat.eqb_spec n 0) as [Z|Z].
  - apply N in Z as [_ Z]. eexists. split; [reflexivity|].
    assert (R : forall m, rin (Set_To_Empty (Range e p q (Some v))) m <-> vin v m = true).
    { intros m. unfold rin, Set_To_Empty. cbn [rmin rmax vec]. split; [intros [Q _]; unfold INT_MIN, INT_MAX in *; lia|]. intros Q. apply I' in Q as [Q1 Q2]. destruct (Z m Q1 Q2). }
    destruct (M (Set_To_Empty (Range e p q (Some v))) eq_refl R) as [M1 M2].
    split; [|split; [exact M1|split; [exact M2|exact X']]].
    unfold rok, Set_To_Empty, is_int. cbn [rmin rmax vec]. split; [exact P|]. split; [unfold INT_MIN, INT_MAX; lia|]. split; [exact V|]. intros Q. unfold INT_MIN, INT_MAX in *. lia.
  - destruct (From_Vector_ok sz small' a e p q v A V P) as (r & E & _ & Er & R & Ir). exists r. split; [exact E|]. split; [exact R|]. destruct (M r Er Ir) as [M1 M2]. split; [exact M1|]. split; [exact M2|]. rewrite Er. exact X'.
Qed.
End P.
(** vectors of two words (0 to 127) *)
Example ex_list : exists v, List_Int_To_Range 2 (Around 0 []) 77 88 [70; 5; 200; 7; 5] = Ret (Range true 5 70 (Some v)) /\ vin v 70 = true /\ vin v 6 = false /\ vin v 7 = true.
Proof. eexists. vm_compute. auto. Qed.
Example ex_none : List_Int_To_Range 2 (Around 0 []) 77 88 [-1] = Ret (Range true 77 INT_MIN (Some [0; 0])).
Proof. reflexivity. Qed.
(** ** The field min is not set when no integer fits: when the stack has INT_MIN there, the range of [] is not empty *)
Theorem C73_min_refuted : exists p q r, is_int p /\ is_int q /\ List_Int_To_Range 2 (Around 0 []) p q [] = Ret r /\ Is_Empty r = false.
Proof. exists INT_MIN, 0. eexists. unfold is_int, INT_MIN, INT_MAX. repeat (split; [lia|]). split; reflexivity. Qed.
Print Assumptions C73_list.
Print Assumptions C73_min_refuted.
