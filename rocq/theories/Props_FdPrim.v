(** C70: the primitives of fd_bool_fd.fd lose no solution and accept no other. *)
Require Import ZArith List Bool Permutation Lia.
Require Import Verif.FdPrim_Model Verif.FdPrim_Spec Verif.FdPrim_Proofs.
Require Verif.FdBool_Model Verif.FdBool_Spec.
Import ListNotations.
Open Scope Z_scope.

Section S.
Variable value : FdBool_Spec.asg -> FdBool_Model.term -> Z.
Notation holds := (FdBool_Spec.holds value).

(** ** C70_bool_sound: a boolean primitive keeps every value that is in a solution *)
Lemma bits e g v : env_ok e -> all_bool e -> inside e g ->
  (lo (e v) = 0 /\ hi (e v) = 0 /\ g v = 0) \/ (lo (e v) = 0 /\ hi (e v) = 1 /\ g v = 0) \/
  (lo (e v) = 0 /\ hi (e v) = 1 /\ g v = 1) \/ (lo (e v) = 1 /\ hi (e v) = 1 /\ g v = 1).
Proof. intros W A I. pose proof (inside_bounds e g v W I). pose proof (A v). lia. Qed.
Theorem C70_bool_sound : forall p k c l b, In (p, k) bool_table -> In (c, l) p -> In b l ->
  forall e g, env_ok e -> all_bool e -> inside e g -> holds g k -> accepts e b (g (target b)) = true.
Proof.
  intros p k c l b J Jc Jb e g W A I Hk.
  pose proof (bits e g 0%nat W A I) as QX. pose proof (bits e g 1%nat W A I) as QY. pose proof (bits e g 2%nat W A I) as QB.
  unfold bool_table in J. cases J; cases Jc; blocks Jb;
  revert Hk; unfold accepts; cbn [range allowed eval target FdBool_Spec.holds FdBool_Spec.val Not Eqv X Y B FdPrim_Model.X FdPrim_Model.Y FdPrim_Model.B];
  unfold Not, Eqv, X, Y, B; cbn [eval];
  destruct QX as [(X1 & X2 & X3)|[(X1 & X2 & X3)|[(X1 & X2 & X3)|(X1 & X2 & X3)]]]; rewrite ?X1, ?X2, ?X3;
  destruct QY as [(Y1 & Y2 & Y3)|[(Y1 & Y2 & Y3)|[(Y1 & Y2 & Y3)|(Y1 & Y2 & Y3)]]]; rewrite ?Y1, ?Y2, ?Y3;
  destruct QB as [(B1 & B2 & B3)|[(B1 & B2 & B3)|[(B1 & B2 & B3)|(B1 & B2 & B3)]]]; rewrite ?B1, ?B2, ?B3;
  vm_compute; try reflexivity; try discriminate; intros Hk; discriminate.
Qed.

(** ** C70_bool_order: an assignment that is not a solution is refused in whatever order its values become known: at some variable
    of the order, already when the variables before it are known, whatever the domains of the others (a block is no longer run
    when its variable is known, optimization 2 of Fd2C) *)
Fixpoint insert (x : nat) (l : list nat) : list (list nat) :=
  match l with [] => [[x]] | y :: l' => (x :: l) :: map (cons y) (insert x l') end.
Fixpoint orders (l : list nat) : list (list nat) := match l with [] => [[]] | x :: l => flat_map (insert x) (orders l) end.
Definition refuses (p : prim) (g : asg) (known : list nat) (v : nat) : Prop :=
  exists b, In b (flat_map snd p) /\ target b = v /\
  forall e, env_ok e -> all_bool e -> inside e g -> (forall w, In w known -> fixed e w) -> accepts e b (g v) = false.
(** the check of one order with all bounds that the variables can have, by computation *)
Definition val3 (g : Z * Z * Z) (v : nat) : Z := match v with 0%nat => fst (fst g) | 1%nat => snd (fst g) | _ => snd g end.
Definition possible (z : Z) (known : bool) : list (Z * Z) := if known then [(z, z)] else [(0, 1); (z, z)].
Definition mkenv (a b c : Z * Z) : env := fun v =>
  let d := match v with 0%nat => a | 1%nat => b | _ => c end in Dom (fun z => (fst d <=? z) && (z <=? snd d)) (fst d) (snd d).
Definition isin (v : nat) (l : list nat) : bool := existsb (Nat.eqb v) l.
Definition envs (g : Z * Z * Z) (known : list nat) : list env :=
  flat_map (fun a => flat_map (fun b => map (mkenv a b) (possible (val3 g 2) (isin 2 known))) (possible (val3 g 1) (isin 1 known)))
    (possible (val3 g 0) (isin 0 known)).
Definition chk (p : prim) (g : Z * Z * Z) (known : list nat) (v : nat) : bool :=
  Nat.ltb v 3 && existsb (fun b => Nat.eqb (target b) v && forallb (fun e => negb (accepts e b (val3 g v))) (envs g known)) (flat_map snd p).
Fixpoint splits (before o : list nat) : list (list nat * nat * list nat) :=
  match o with [] => [] | v :: o' => (before, v, o') :: splits (before ++ [v]) o' end.
Lemma splits_ok o : forall before k v l, In (k, v, l) (splits before o) -> before ++ o = k ++ v :: l.
Proof.
  induction o as [|x o IH]; intros before k v l J; [destruct J|]. destruct J as [J|J]; [congruence|].
  apply IH in J. rewrite <- app_assoc in J. exact J.
Qed.
Lemma agree p k b e e' z : In (p, k) bool_table -> In b (flat_map snd p) ->
  (forall v, (v < 3)%nat -> lo (e v) = lo (e' v) /\ hi (e v) = hi (e' v)) -> accepts e b z = accepts e' b z.
Proof.
  intros J Jb Q. destruct (Q 0%nat ltac:(lia)) as [Q1 Q2]. destruct (Q 1%nat ltac:(lia)) as [Q3 Q4]. destruct (Q 2%nat ltac:(lia)) as [Q5 Q6]. clear Q.
  apply in_flat_map in Jb as ((c & l) & Jc & Jb). cbn [snd] in Jb. unfold bool_table in J.
  cases J; cases Jc; blocks Jb; unfold accepts; cbn [range allowed eval]; unfold Eqv; unfold Not, X, Y, B; cbn [eval];
  rewrite ?Q1, ?Q2, ?Q3, ?Q4, ?Q5, ?Q6; reflexivity.
Qed.
Lemma isin_In v l : isin v l = true -> In v l.
Proof. unfold isin. rewrite existsb_exists. intros (w & J & E). apply Nat.eqb_eq in E. subst. exact J. Qed.
Lemma possible_ok e g known v : env_ok e -> all_bool e -> inside e g -> (forall w, In w known -> fixed e w) ->
  In (lo (e v), hi (e v)) (possible (g v) (isin v known)).
Proof.
  intros W A I F. destruct (isin v known) eqn:K.
  - apply isin_In in K. apply F in K. unfold fixed in K.
    destruct (bits e g v W A I) as [(X1 & X2 & X3)|[(X1 & X2 & X3)|[(X1 & X2 & X3)|(X1 & X2 & X3)]]]; rewrite X1, X2 in K;
    try discriminate K; rewrite X1, X2, X3; left; reflexivity.
  - destruct (bits e g v W A I) as [(X1 & X2 & X3)|[(X1 & X2 & X3)|[(X1 & X2 & X3)|(X1 & X2 & X3)]]]; rewrite X1, X2, X3; vm_compute; tauto.
Qed.
Lemma chk_ok p k g known v : In (p, k) bool_table -> chk p (g 0%nat, g 1%nat, g 2%nat) known v = true -> refuses p g known v.
Proof.
  intros J Q. unfold chk in Q. apply andb_true_iff in Q as [Lv Q]. apply Nat.ltb_lt in Lv.
  apply existsb_exists in Q as (b & Jb & Q). apply andb_true_iff in Q as [Tb Q]. apply Nat.eqb_eq in Tb.
  exists b. split; [exact Jb|]. split; [exact Tb|]. intros e W A I F. rewrite forallb_forall in Q.
  set (e' := mkenv (lo (e 0%nat), hi (e 0%nat)) (lo (e 1%nat), hi (e 1%nat)) (lo (e 2%nat), hi (e 2%nat))).
  assert (E : In e' (envs (g 0%nat, g 1%nat, g 2%nat) known)).
  { unfold envs. apply in_flat_map. eexists. split; [apply (possible_ok e g known 0%nat W A I F)|].
    apply in_flat_map. eexists. split; [apply (possible_ok e g known 1%nat W A I F)|].
    apply in_map_iff. eexists. split; [reflexivity|]. apply (possible_ok e g known 2%nat W A I F). }
  specialize (Q _ E). apply negb_true_iff in Q.
  replace (val3 (g 0%nat, g 1%nat, g 2%nat) v) with (g v) in Q by (destruct v as [|[|[|v]]]; [reflexivity|reflexivity|reflexivity|lia]).
  rewrite <- Q. apply (agree p k); auto. intros w Lw. unfold e', mkenv. destruct w as [|[|[|w]]]; [split; reflexivity..|lia].
Qed.
Definition search (p : prim) (g : Z * Z * Z) : bool :=
  forallb (fun o => existsb (fun x => chk p g (fst (fst x)) (snd (fst x))) (splits [] o)) (orders (targets p)).
Lemma search_ok p k g o : In (p, k) bool_table -> In o (orders (targets p)) -> search p (g 0%nat, g 1%nat, g 2%nat) = true ->
  exists known v later, o = known ++ v :: later /\ refuses p g known v.
Proof.
  intros J Jo Q. unfold search in Q. rewrite forallb_forall in Q. apply Q in Jo. apply existsb_exists in Jo as (((kn & v) & l) & Js & Qs).
  exists kn, v, l. split; [exact (splits_ok o [] kn v l Js)|]. apply (chk_ok p k); auto.
Qed.
Theorem C70_bool_order : forall p k, In (p, k) bool_table -> forall o, In o (orders (targets p)) ->
  forall g, (forall v, g v = 0 \/ g v = 1) -> ~ holds g k ->
  exists known v later, o = known ++ v :: later /\ refuses p g known v.
Proof.
  intros p k J o Jo g Hg N. apply (search_ok p k g o J Jo). clear Jo o.
  pose proof (Hg 0%nat) as G0. pose proof (Hg 1%nat) as G1. pose proof (Hg 2%nat) as G2. clear Hg.
  unfold bool_table in J. cases J; destruct G0 as [G0|G0]; destruct G1 as [G1|G1]; destruct G2 as [G2|G2];
  first [ rewrite G0, G1, G2; vm_compute; reflexivity
        | exfalso; apply N; cbn [FdBool_Spec.holds FdBool_Spec.val]; unfold X, Y, B; rewrite ?G0, ?G1, ?G2; vm_compute; reflexivity ].
Qed.
End S.
Print Assumptions C70_bool_sound.
Print Assumptions C70_bool_order.
(** X ==> Y <=> B with B = 0 and Y = 1: refused at Y, already before X is known *)
Example C70_bool_ex : In (p_x_imply_y_eq_b, FdBool_Model.x_imply_y_eq_b (FdBool_Model.WVar 0) (FdBool_Model.WVar 1) (FdBool_Model.WVar 2)) bool_table /\
  In [2; 1; 0]%nat (orders (targets p_x_imply_y_eq_b)) /\
  let bool := Dom (fun z => (0 <=? z) && (z <=? 1)) 0 1 in let known z := Dom (Z.eqb z) z z in
  let e v := match v with 2%nat => known 0 | _ => bool end in
  env_ok e /\ all_bool e /\ inside e (fun v => match v with 2%nat => 0 | _ => 1 end) /\
  accepts e (start Y IN In_ (And (mn B) (mn X)) (mx B)) 1 = false.
Proof.
  split; [cbn; tauto|]. split; [vm_compute; tauto|]. cbv zeta. split; [|split; [|split]].
  - split; [|cbn; lia]. intros [|[|[|v]]]; unfold wf, max_integer; cbn; (split; [reflexivity|]); (split; [reflexivity|]);
    (split; [|lia]); intros z Q; try (apply andb_true_iff in Q as [Q1 Q2]; apply Z.leb_le in Q1, Q2; lia);
    destruct z; try discriminate; lia.
  - intros [|[|[|v]]]; cbn; lia.
  - intros [|[|[|v]]]; reflexivity.
  - reflexivity.
Qed.
