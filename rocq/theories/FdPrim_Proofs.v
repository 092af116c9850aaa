(** Lemmas on domains, tactics. *)
Require Import ZArith List Bool Permutation Lia.
Require Import Verif.FdPrim_Model Verif.FdPrim_Spec.
Require Verif.FdBool_Model Verif.FdBool_Spec.
Import ListNotations.
Open Scope Z_scope.

Lemma inside_bounds e g v : env_ok e -> inside e g -> lo (e v) <= g v <= hi (e v) /\ 0 <= lo (e v) /\ hi (e v) <= max_integer.
Proof. intros [W _] I. destruct (W v) as (_ & _ & A & B0 & B1). split; [apply A, I|auto]. Qed.
Lemma null_inter v c w e : env_ok e -> (Test_Null_Inter v c w e = true <-> forall z, mem (e v) z = true -> mem (e w) (z + c) = true -> False).
Proof.
  intros [W _]. unfold Test_Null_Inter. rewrite forallb_forall. split.
  - intros Q z M1 M2. destruct (W v) as (_ & _ & A & _). specialize (A z M1).
    assert (J : In (Z.to_nat (z - lo (e v))) (seq 0 (S (Z.to_nat (hi (e v) - lo (e v)))))) by (apply in_seq; lia).
    specialize (Q _ J). cbv zeta in Q. replace (lo (e v) + Z.of_nat (Z.to_nat (z - lo (e v)))) with z in Q by lia.
    rewrite M1, M2 in Q. discriminate.
  - intros Q i J. cbv zeta. destruct (mem (e v) (lo (e v) + Z.of_nat i)) eqn:M1; [|reflexivity].
    destruct (mem (e w) (lo (e v) + Z.of_nat i + c)) eqn:M2; [|reflexivity]. destruct (Q _ M1 M2).
Qed.
Ltac cases J := repeat (destruct J as [J|J]; [injection J as <- <-|]); [..|destruct J].
Ltac blocks J := repeat (destruct J as [<-|J]); [..|destruct J].
Ltac specs := repeat match goal with
  | |- context [?a =? ?b] => destruct (Z.eqb_spec a b)
  | |- context [?a <? ?b] => destruct (Z.ltb_spec a b)
  | |- context [?a <=? ?b] => destruct (Z.leb_spec a b)
  | W : context [?a =? ?b] |- _ => destruct (Z.eqb_spec a b)
  | W : context [?a <? ?b] |- _ => destruct (Z.ltb_spec a b)
  | W : context [?a <=? ?b] |- _ => destruct (Z.leb_spec a b)
  end.
Ltac fin := cbn [andb orb negb Z.b2z] in *; try reflexivity; try discriminate; try (exfalso; lia); try lia.

