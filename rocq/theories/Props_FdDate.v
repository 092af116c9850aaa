(** C30: the dates of optimization #2. *)
Require Import ZArith List Bool Lia.
Require Import Verif.FdProp_Model.
Open Scope Z_scope.

Lemma date_next s : 1 <= DATE s < 2 ^ 64 -> DATE (Before_Add_Cstr s) = (DATE s - 1 + 1) mod (2 ^ 64 - 1) + 1.
Proof.
  intros H. unfold Before_Add_Cstr, W64, DATE_NEVER. cbn [DATE]. destruct (Z.eq_dec (DATE s) (2 ^ 64 - 1)) as [->|N]; [reflexivity|].
  rewrite Z.mod_small by lia. replace (DATE s + 1 =? 0) with false by (symmetry; apply Z.eqb_neq; lia). rewrite Z.mod_small by lia. lia.
Qed.
Lemma date_iter s k : 1 <= DATE s < 2 ^ 64 -> DATE (Nat.iter k Before_Add_Cstr s) = (DATE s - 1 + Z.of_nat k) mod (2 ^ 64 - 1) + 1 /\
  vars (Nat.iter k Before_Add_Cstr s) = vars s.
Proof.
  intros H. induction k as [|k [IH1 IH2]].
  - split; [|reflexivity]. change (Nat.iter 0 Before_Add_Cstr s) with s. rewrite Z.mod_small by lia. lia.
  - change (Nat.iter (S k) Before_Add_Cstr s) with (Before_Add_Cstr (Nat.iter k Before_Add_Cstr s)). split; [|exact IH2].
    pose proof (Z.mod_pos_bound (DATE s - 1 + Z.of_nat k) (2 ^ 64 - 1) ltac:(lia)) as B.
    rewrite date_next by (rewrite IH1; lia). rewrite IH1. f_equal.
    replace ((DATE s - 1 + Z.of_nat k) mod (2 ^ 64 - 1) + 1 - 1 + 1) with ((DATE s - 1 + Z.of_nat k) mod (2 ^ 64 - 1) + 1) by lia.
    rewrite Z.add_mod_idemp_l by lia. f_equal. lia.
Qed.
(** ** C30_dates: a constraint whose variable became an integer in a propagation is still run in this propagation, and in none of the
    2^64 - 2 that follow; the date is never DATE_NEVER *)
Theorem C30_dates : forall s c v, optim c = Some v -> date (vars s v) = DATE s -> 1 < DATE s < 2 ^ 64 ->
  skipped s c = false /\
  forall k, (0 < k)%nat -> Z.of_nat k < 2 ^ 64 - 1 -> 1 <= DATE (Nat.iter k Before_Add_Cstr s) < 2 ^ 64 /\ skipped (Nat.iter k Before_Add_Cstr s) c = true.
Proof.
  intros s c v E D H. split.
  - unfold skipped. rewrite E, D, Z.eqb_refl. apply andb_false_r.
  - intros k K1 K2. destruct (date_iter s k ltac:(lia)) as [I1 I2].
    pose proof (Z.mod_pos_bound (DATE s - 1 + Z.of_nat k) (2 ^ 64 - 1) ltac:(lia)) as B. split; [lia|].
    unfold skipped. rewrite E, I2, D, I1. unfold DATE_ALWAYS. replace (DATE s =? 1) with false by (symmetry; apply Z.eqb_neq; lia).
    replace (DATE s =? (DATE s - 1 + Z.of_nat k) mod (2 ^ 64 - 1) + 1) with false; [reflexivity|]. symmetry. apply Z.eqb_neq. intros Q.
    pose proof (Z.div_mod (DATE s - 1 + Z.of_nat k) (2 ^ 64 - 1) ltac:(lia)) as M.
    set (q := (DATE s - 1 + Z.of_nat k) / (2 ^ 64 - 1)) in *. nia.
Qed.
(** the date 1 is DATE_ALWAYS: such a constraint is run once more in each propagation, which is correct *)
Example C30_dates_ex : exists s, DATE s = 2 ^ 64 - 1 /\ DATE (Before_Add_Cstr s) = 1 /\ DATE (Before_Add_Cstr (Before_Add_Cstr s)) = 2.
Proof. exists (St (fun _ => Vst (FdTell_Model.New_Variable_Interval 0 1) 1 0 0 0 (fun _ => nil)) nil None 0%nat (2 ^ 64 - 1)). repeat split. Qed.
Print Assumptions C30_dates.
