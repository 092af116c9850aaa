(** C70: the reified comparisons of fd_bool_fd.fd. *)
Require Import ZArith List Bool Lia.
Require Import Verif.FdPrim_Model Verif.FdPrim_Spec Verif.FdPrim_Proofs.
Require Verif.FdBool_Model Verif.FdBool_Spec.
Import ListNotations.
Open Scope Z_scope.

Section S.
Variable value : FdBool_Spec.asg -> FdBool_Model.term -> Z.
Notation holds := (FdBool_Spec.holds value).

Lemma sub_inside e e0 g : sub e e0 -> inside e g -> inside e0 g.
Proof. intros Q I v. apply Q, I. Qed.
Lemma null_at e0 g c : env_ok e0 -> inside e0 g -> Test_Null_Inter X c Y e0 = true -> g X + c <> g Y.
Proof. intros W I Q E. apply (proj1 (null_inter X c Y e0 W) Q (g X)); [apply I|]. rewrite E. apply I. Qed.
Lemma value_at e0 g c : inside e0 g -> negb (Test_Value X c e0) = true -> g X <> c.
Proof. intros I Q E. unfold Test_Value in Q. rewrite <- E, (I X) in Q. discriminate. Qed.

Ltac conds Hc I0 W0 := cbv beta zeta in Hc;
  first [ apply (null_at _ _ _ W0 I0) in Hc | apply (value_at _ _ _ I0) in Hc
        | unfold b_is_0, b_is_1 in Hc; rewrite ?andb_true_iff, ?orb_true_iff, ?Z.eqb_eq, ?Z.ltb_lt, ?Z.leb_le in Hc ].
Ltac facts e g W I := let a := fresh in let b := fresh in let c := fresh in
  pose proof (inside_bounds e g X W I) as a; pose proof (inside_bounds e g Y W I) as b; pose proof (inside_bounds e g B W I) as c;
  destruct a as (? & ? & ?); destruct b as (? & ? & ?); destruct c as (? & ? & ?).

(** ** C70_truth_sound: the blocks of a case keep every value that is in a solution; [e0]: when the case was started *)
Theorem C70_truth_sound : forall C L U p k c l b, In (p, k) (truth_table C L U) -> In (c, l) p -> In b l ->
  forall e0 e g, env_ok e0 -> c e0 = true -> env_ok e -> sub e e0 -> inside e g -> holds g k -> accepts e b (g (target b)) = true.
Proof.
  intros C L U p k c l b J Jc Jb e0 e g W0 Hc W Sb I Hk. pose proof (sub_inside _ _ _ Sb I) as I0.
  facts e g W I. facts e0 g W0 I0. pose proof (I X) as MX. pose proof (I Y) as MY.
  pose proof (proj2 W0) as HB.
  unfold truth_table in J. cases J; cases Jc; blocks Jb; conds Hc I0 W0;
  cbn [FdBool_Spec.holds FdBool_Spec.val FdBool_Spec.tells] in Hk; unfold FdBool_Spec.tells in Hk;
  unfold accepts; cbn [range allowed eval target];
  unfold max_integer in *;
  try (first [replace (g X - - C) with (g Y); [exact MY|] | replace (g Y - C) with (g X); [exact MX|]
             |replace (g X - 0) with (g Y); [exact MY|] | replace (g Y - 0) with (g X); [exact MX|] ]);
  specs; fin.
Qed.

(** ** C70_truth_exact: when the variables are known, each block of the case that was started accepts only a solution *)
Theorem C70_truth_exact : forall C L U p k c l b, In (p, k) (truth_table C L U) -> In (c, l) p -> In b l ->
  forall e0 e g, env_ok e0 -> c e0 = true -> env_ok e -> sub e e0 -> inside e g -> fixed e X -> fixed e Y -> fixed e B ->
  accepts e b (g (target b)) = true -> holds g k.
Proof.
  intros C L U p k c l b J Jc Jb e0 e g W0 Hc W Sb I FX FY FB Ha. pose proof (sub_inside _ _ _ Sb I) as I0. unfold fixed in *.
  facts e g W I. facts e0 g W0 I0.
  assert (MX : forall z, mem (e X) z = true -> lo (e X) <= z <= hi (e X)) by apply (proj1 W X).
  assert (MY : forall z, mem (e Y) z = true -> lo (e Y) <= z <= hi (e Y)) by apply (proj1 W Y).
  pose proof (proj2 W0) as HB.
  unfold truth_table in J. cases J; cases Jc; blocks Jb; conds Hc I0 W0;
  cbn [FdBool_Spec.holds FdBool_Spec.val]; unfold FdBool_Spec.tells;
  unfold accepts in Ha; cbn [range allowed eval target] in Ha;
  rewrite ?FX, ?FY, ?FB, ?Z.eqb_refl in Ha;
  try (apply MX in Ha); try (apply MY in Ha); clear MX MY;
  rewrite ?andb_true_iff, ?negb_true_iff, ?Z.eqb_eq, ?Z.eqb_neq, ?Z.leb_le in Ha;
  specs; fin.
Qed.

(** ** C70_truth_starts: a case is started at the latest when B is known, or the other variables are *)
Theorem C70_truth_starts : forall C L U p k, In (p, k) (truth_table C L U) ->
  forall e, env_ok e -> fixed e B \/ (fixed e X /\ fixed e Y) -> select e p <> None.
Proof.
  intros C L U p k J e W F. unfold fixed in F.
  assert (B0 : fixed e B -> b_is_0 e = true \/ b_is_1 e = true).
  { unfold fixed, b_is_0, b_is_1. intros E. rewrite !Z.eqb_eq. destruct W as [W HB]. destruct (W B) as (_ & _ & _ & Q & _). lia. }
  assert (Q : (b_is_0 e = true \/ b_is_1 e = true) \/ (lo (e X) = hi (e X) /\ lo (e Y) = hi (e Y))) by (destruct F; auto).
  assert (N : forall c, lo (e X) + c <> lo (e Y) -> lo (e X) = hi (e X) -> lo (e Y) = hi (e Y) -> Test_Null_Inter X c Y e = true).
  { intros c Ne E1 E2. apply null_inter; [auto|]. intros z M1 M2. destruct (proj1 W X) as (_ & _ & A & _). destruct (proj1 W Y) as (_ & _ & A' & _).
    specialize (A z M1). specialize (A' (z + c) M2). lia. }
  assert (V : forall c, lo (e X) <> c -> lo (e X) = hi (e X) -> negb (Test_Value X c e) = true).
  { intros c Ne E1. unfold Test_Value. destruct (mem (e X) c) eqn:M; [|reflexivity]. destruct (proj1 W X) as (_ & _ & A & _). specialize (A c M). lia. }
  clear F B0.
  unfold truth_table in J. cases J;
  lazy beta iota zeta delta [select p_truth_x_eq_c p_truth_x_eq_y p_truth_x_plus_c_eq_y p_truth_x_eq_c_F p_truth_x_eq_y_F p_truth_x_plus_c_eq_y_F p_truth_x_neq_c p_truth_x_neq_y p_truth_x_plus_c_neq_y p_truth_x_neq_c_F p_truth_x_neq_y_F p_truth_x_plus_c_neq_y_F p_truth_x_lt_y p_truth_x_lte_c p_truth_x_lte_y p_truth_x_plus_c_lte_y p_truth_x_gte_c p_truth_x_plus_c_gte_y p_truth_x_in_l_u];
  (destruct (b_is_0 e); [discriminate|]); (destruct (b_is_1 e); [discriminate|]);
  (destruct Q as [[Q|Q]|[Q1 Q2]]; [discriminate|discriminate|]); cbv beta; rewrite <- ?Q1, <- ?Q2;
  try solve [specs; cbn [andb orb]; (discriminate || (exfalso; lia))];
  match goal with
       | |- context [Test_Null_Inter X ?c Y e] => destruct (Z.eq_dec (lo (e X) + c) (lo (e Y))) as [E|E];
         [rewrite E, !Z.eqb_refl; destruct (Test_Null_Inter X c Y e); cbn [andb]; discriminate
         |rewrite (N c E Q1 Q2)]
       | |- context [Test_Value X ?c e] => destruct (Z.eq_dec (lo (e X)) c) as [E|E];
         [rewrite E, !Z.eqb_refl; destruct (Test_Value X c e); cbn [andb negb]; discriminate
         |rewrite (V c E Q1)]
       end;
  try discriminate;
  match goal with |- context [?a && ?b] => destruct (a && b) end; discriminate.
Qed.
End S.
Print Assumptions C70_truth_sound.
Print Assumptions C70_truth_exact.
Print Assumptions C70_truth_starts.

(** X + 5 #= Y <=> B, without the variants for whole domains: X in 0..10, Y in 0..2: nothing is started by the bounds 0..10 and
    0..20; with Y in 0..2 the case for B = 0 is *)
Example C70_truth_ex : In (p_truth_x_plus_c_eq_y 5, FdBool_Model.truth_x_plus_c_eq_y (FdBool_Model.WVar X) 5 (FdBool_Model.WVar Y) (FdBool_Model.WVar B))
    (truth_table 5 0 0) /\
  let range l u := Dom (fun z => (l <=? z) && (z <=? u)) l u in
  let e h v := match v with 0%nat => range 0 10 | 1%nat => range 0 h | _ => range 0 1 end in
  env_ok (e 20) /\ env_ok (e 2) /\ select (e 20) (p_truth_x_plus_c_eq_y 5) = None /\
  select (e 2) (p_truth_x_plus_c_eq_y 5) = Some [start B IN Val_ (K 0)] /\
  inside (e 2) (fun v => match v with 0%nat => 3 | _ => 0 end) /\
  accepts (e 2) (start B IN Val_ (K 0)) 0 = true /\ accepts (e 2) (start B IN Val_ (K 0)) 1 = false.
Proof.
  split; [cbn; tauto|]. cbv zeta. split; [|split; [|split; [|split; [|split]]]].
  1,2: split; [|cbn; lia]; intros [|[|v]]; unfold wf, max_integer; cbn; (split; [reflexivity|]); (split; [reflexivity|]);
    (split; [|lia]); intros z Q; apply andb_true_iff in Q as [Q1 Q2]; apply Z.leb_le in Q1, Q2; lia.
  - reflexivity.
  - reflexivity.
  - intros [|[|v]]; reflexivity.
  - split; reflexivity.
Qed.
