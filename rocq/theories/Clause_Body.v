(** C60: the code of the goals, and of the clause. *)
Require Import List Bool Arith Lia Permutation.
Require Import Verif.RegAlloc_Model Verif.RegAlloc_Spec Verif.RegAlloc_Graph Verif.Clause_Model Verif.Clause_Spec Verif.Clause_Exec Verif.Clause_Shape Verif.Clause_Sound Verif.Clause_Complete Verif.Clause_Class.
Import ListNotations.

(** * Lists of arguments *)
Lemma split_perm : forall kd l lk ls lt, split_arg_lst kd l = (lk, ls, lt) -> Permutation (lk ++ ls ++ lt) l.
Proof.
  intros kd. induction l as [|p l IH]; intros lk ls lt E; cbn in E; [injection E as <- <- <-; constructor|].
  destruct (split_arg_lst kd l) as ((lk1, ls1), lt1) eqn:E1. specialize (IH _ _ _ eq_refl).
  assert (Q1 : Permutation ((p :: lk1) ++ ls1 ++ lt1) (p :: l)) by (cbn; constructor; exact IH).
  assert (Q2 : Permutation (lk1 ++ (p :: ls1) ++ lt1) (p :: l)) by (etransitivity; [|constructor; exact IH]; symmetry; apply Permutation_middle).
  assert (Q3 : Permutation (lk1 ++ ls1 ++ p :: lt1) (p :: l)) by (etransitivity; [|constructor; exact IH]; rewrite !app_assoc; symmetry; apply Permutation_middle).
  destruct (snd p); [destruct (has_temporaries kd (Tv n))| |destruct (has_temporaries kd (Tf f l0))]; injection E as <- <- <-; assumption.
Qed.
Lemma body_perm : forall fl kd l, Permutation (reorder_body_arg_lst fl kd l) l.
Proof.
  intros fl kd l. unfold reorder_body_arg_lst. destruct (reorder fl); [|reflexivity]. destruct (split_arg_lst kd l) as ((lk, ls), lt) eqn:E. apply split_perm in E. etransitivity; [|exact E].
  rewrite app_assoc. apply Permutation_app_comm.
Qed.
Lemma head_perm : forall fl kd l, Permutation (reorder_head_arg_lst fl kd l) l.
Proof.
  intros fl kd l. unfold reorder_head_arg_lst. destruct (reorder fl); [|reflexivity]. destruct (split_arg_lst kd l) as ((lk, ls), lt) eqn:E. apply split_perm in E. etransitivity; [|exact E].
  apply Permutation_app_head. etransitivity; [apply Permutation_app_comm|]. apply Permutation_app_head. symmetry. apply Permutation_rev.
Qed.
Lemma combine_fst : forall (l : list tm) k, map fst (combine (map A (seq k (length l))) l) = map A (seq k (length l)).
Proof. induction l as [|t l IH]; intros k; [reflexivity|]. cbn. f_equal. apply IH. Qed.
Lemma combine_snd : forall (l : list tm) k, map snd (combine (map A (seq k (length l))) l) = l.
Proof. induction l as [|t l IH]; intros k; [reflexivity|]. cbn. f_equal. apply IH. Qed.
Lemma arg_regs_fst : forall l, map fst (arg_regs l) = map A (seq 0 (length l)).
Proof. intros l. apply combine_fst. Qed.
Lemma arg_regs_snd : forall l, map snd (arg_regs l) = l.
Proof. intros l. apply combine_snd. Qed.
Lemma lvars_perm : forall l l', Permutation l l' -> Permutation (lvars l) (lvars l').
Proof. intros l l' H. unfold lvars. apply Permutation_flat_map. exact H. Qed.
Lemma all_A : forall (l l' : list (reg * tm)) args, Permutation l (arg_regs args) -> forall p, In p l -> exists a, fst p = A a /\ a < length args.
Proof.
  intros l l' args H p Hp. apply (Permutation_in _ H) in Hp. apply (in_map fst) in Hp. rewrite arg_regs_fst in Hp. apply in_map_iff in Hp. destruct Hp as (a & E & Ha). apply in_seq in Ha. exists a. split; [auto|lia].
Qed.
Lemma regs_values : forall (B : Type) (m : reg -> B) (f : tm -> B) l k, (forall x t, In (x, t) (combine (map A (seq k (length l))) l) -> m x = f t) -> map m (map A (seq k (length l))) = map f l.
Proof. intros B m f. induction l as [|t l IH]; intros k H; [reflexivity|]. cbn in *. f_equal; [apply H; auto|]. apply IH. intros x u Hx. apply H. auto. Qed.
Lemma regs_values_inv : forall (B : Type) (m : reg -> B) (f : tm -> B) l k, map m (map A (seq k (length l))) = map f l -> forall x t, In (x, t) (combine (map A (seq k (length l))) l) -> m x = f t.
Proof. intros B m f. induction l as [|t l IH]; intros k H x u Hx; cbn in *; [contradiction|]. injection H as H1 H2. destruct Hx as [Hx|Hx]; [injection Hx as <- <-; exact H1|]. apply (IH _ H2 _ _ Hx). Qed.
Lemma vo_split : forall kd l1 l2, NoDup (vo kd (l1 ++ l2)) -> NoDup (vo kd l1) /\ NoDup (vo kd l2) /\ forall n, In n l1 -> In n l2 -> kd n <> KVoid.
Proof. intros kd. exact (vo_nodup unit (fun _ _ => tt) kd 0). Qed.
Lemma vo_nodup_perm : forall kd l l', Permutation l l' -> NoDup (vo kd l) -> NoDup (vo kd l').
Proof. intros kd l l' H. apply Permutation_NoDup. apply vo_perm. exact H. Qed.

(** * Instructions which keep the environment *)
Definition plain (i : inst) : bool :=
  match i with
  | call _ _ | call_c _ _ _ _ => false
  | other (i_allocate _) | other i_deallocate | other i_proceed => false
  | _ => true
  end.
Lemma plain_voids : forall v, forallb plain (voids v) = true.
Proof. intros [|n v]; reflexivity. Qed.
Lemma plain_sub_var : forall n k s, forallb plain (fst (sub_var n k s)) = true.
Proof. intros n k s. unfold sub_var. destruct (inf s n) as [[]|], k; reflexivity. Qed.
Lemma plain_sub : forall kd l v s, forallb plain (fst (gen_sub kd v l s)) = true.
Proof.
  intros kd. induction l as [|[n|b|x t] l IH|f n l IH]; intros v s; cbn [gen_sub].
  - apply plain_voids.
  - destruct (is_void kd n); [apply IH|]. pose proof (plain_sub_var n (kd n) s) as Q. destruct (sub_var n (kd n) s) as (c1, s1). specialize (IH [] s1). destruct (gen_sub kd [] l s1) as (c2, s2). cbn [fst] in *. rewrite !forallb_app, plain_voids, Q, IH. reflexivity.
  - specialize (IH [] s). destruct (gen_sub kd [] l s) as (c2, s2). cbn [fst] in *. rewrite forallb_app, plain_voids. cbn. exact IH.
  - pose proof (plain_sub_var x KX s) as Q. destruct (sub_var x KX s) as (c1, s1). specialize (IH [] s1). destruct (gen_sub kd [] l s1) as (c2, s2). cbn [fst] in *. rewrite !forallb_app, plain_voids, Q, IH. reflexivity.
  - specialize (IH [] s). destruct (gen_sub kd [] l s) as (c2, s2). cbn [fst] in *. rewrite forallb_app, plain_voids. cbn. exact IH.
Qed.
Lemma plain_lst : forall (g : tm -> reg -> st -> option (list inst * st)) l, (forall t x s c s', g t x s = Some (c, s') -> forallb plain c = true) -> forall s c s', gen_lst g l s = Some (c, s') -> forallb plain c = true.
Proof.
  intros g l HG. induction l as [|(x, t) l IH]; intros s c s' E; cbn in E; [injection E as <- <-; reflexivity|]. destruct (g t x s) as [(c1, s1)|] eqn:E1; [|discriminate E]. destruct (gen_lst g l s1) as [(c2, s2)|] eqn:E2; [|discriminate E]. injection E as <- <-.
  rewrite forallb_app, (HG _ _ _ _ _ E1), (IH _ _ _ E2). reflexivity.
Qed.
Lemma plain_unif : forall fl kd k t x s c s', gen_unif fl kd k t x s = Some (c, s') -> forallb plain c = true.
Proof.
  intros fl kd. assert (HV : forall n x s, forallb plain (fst (unif_var kd n x s)) = true) by (intros n x s; unfold unif_var; destruct (inf s n), (kd n); reflexivity).
  induction k as [|k IH]; intros [n|b|f l] x s c s' E; cbn [gen_unif] in E; try discriminate E; try (injection E as <- <-; reflexivity); try (injection E as E; specialize (HV n x s); rewrite E in HV; exact HV).
  destruct (flat fl true (Tf f l) s) as ((fa, ax), s1). pose proof (plain_sub kd fa [] s1) as Q. destruct (gen_sub kd [] fa s1) as (c1, s2). destruct (gen_lst (gen_unif fl kd k) (auxs ax) s2) as [(c2, s3)|] eqn:EL; [|discriminate E]. injection E as <- <-.
  cbn [fst forallb] in *. rewrite forallb_app, Q, (plain_lst _ _ IH _ _ _ EL). reflexivity.
Qed.
Lemma plain_load : forall fl kd lp k t x s c s', gen_load fl kd lp k t x s = Some (c, s') -> forallb plain c = true.
Proof.
  intros fl kd lp. assert (HV : forall n x s, forallb plain (fst (load_var kd lp n x s)) = true) by (intros n x s; unfold load_var; destruct (inf s n), (kd n), lp; reflexivity).
  induction k as [|k IH]; intros [n|b|f l] x s c s' E; try discriminate E; try (injection E as <- <-; reflexivity); try (injection E as E; specialize (HV n x s); rewrite E in HV; exact HV).
  rewrite gen_load_Tf in E. destruct (as_meta f l) as [(md, g)|].
  - destruct (new_reg s) as (x1, s1). destruct (gen_load fl kd lp k g (T x1) s1) as [(c1, s2)|] eqn:E1; [|discriminate E]. injection E as <- <-. rewrite forallb_app, (IH _ _ _ _ _ E1). reflexivity.
  - destruct (flat fl false (Tf f l) s) as ((fa, ax), s1). destruct (gen_lst (gen_load fl kd lp k) (auxs ax) s1) as [(c1, s2)|] eqn:EL; [|discriminate E]. pose proof (plain_sub kd fa [] s2) as Q. destruct (gen_sub kd [] fa s2) as (c2, s3). injection E as <- <-.
    rewrite forallb_app, (plain_lst _ _ IH _ _ _ EL). cbn [fst forallb] in *. rewrite Q. reflexivity.
Qed.
Lemma plain_byreg : forall fl kd lp l s c lx s', load_by_reg_arg_lst fl kd lp l s = Some (c, lx, s') -> forallb plain c = true.
Proof.
  intros fl kd lp. induction l as [|t l IH]; intros s c lx s' E; cbn [load_by_reg_arg_lst] in E; [injection E as <- <- <-; reflexivity|]. destruct (new_reg s) as (x, s0). unfold load_arg in E. destruct (gen_load fl kd lp (depth t) t (T x) s0) as [(c1, s1)|] eqn:E1; [|discriminate E].
  destruct (load_by_reg_arg_lst fl kd lp l s1) as [((c2, lx2), s2)|] eqn:E2; [|discriminate E]. injection E as <- <- <-. rewrite forallb_app, (plain_load _ _ _ _ _ _ _ _ _ E1), (IH _ _ _ _ E2). reflexivity.
Qed.

Section Env.
Variable V : Type.
Variable cst : const -> V.
Variable fn : nat -> list V -> V.
Definition kind_env (q : mach V) : option (option nat) := match me V q with NoEnv _ => None | Left _ => Some None | Env _ n _ => Some (Some n) end.
Lemma kind_set_y : forall q y v, kind_env (set_y V q y v) = kind_env q.
Proof. intros q y v. unfold kind_env, set_y. destruct (me V q) eqn:E; cbn; rewrite ?E; reflexivity. Qed.
Lemma kind_set_s : forall q l, kind_env (set_s V q l) = kind_env q.
Proof. reflexivity. Qed.
Lemma pexec1_env : forall i d q d' q', plain i = true -> pexec1 V cst fn i d q d' q' -> kind_env q' = kind_env q.
Proof.
  intros i d q d' q' Pl H. destruct i; cbn [plain] in Pl; try discriminate Pl; unfold pexec1 in H; cbn [effect_of] in H; try (destruct H as (_ & _ & ->); reflexivity);
    destruct H as (v & vs & _ & _ & (_ & H)); cbn [label_of] in H.
  all: try (destruct k; try discriminate Pl).
  all: repeat match goal with H : match ?x with nil => _ | _ => _ end |- _ => destruct x end; try contradiction.
  all: repeat match goal with H : exists _, _ |- _ => destruct H | H : _ /\ _ |- _ => destruct H end; subst; rewrite ?kind_set_s, ?kind_set_y; reflexivity.
Qed.
Lemma pexec_env : forall l d q d' q', forallb plain l = true -> pexec V cst fn l d q d' q' -> kind_env q' = kind_env q.
Proof.
  induction l as [|i l IH]; intros d q d' q' Pl H; cbn in *; [destruct H as (_ & ->); reflexivity|]. apply andb_true_iff in Pl. destruct Pl as (P1 & P2). destruct H as (d1 & q1 & H1 & H). rewrite (IH _ _ _ _ P2 H). apply (pexec1_env _ _ _ _ _ P1 H1).
Qed.
End Env.

(** * The arguments of a goal *)
Section Goals.
Variable fl : flags.
Variable kd : nat -> kind.
Variable N0 : nat.
Hypothesis kd_inj : forall n n' y, n < N0 -> n' < N0 -> kd n = KY y -> kd n' = KY y -> n = n'.
Notation shape := (shape kd N0).
Notation KV := (KV kd N0).

Lemma new_shape : forall s x s0 Vs s1 c1, new_reg s = (x, s0) -> wfs N0 s -> shape [x] Vs s0 s1 c1 -> shape [] Vs s s1 c1 /\ x = nxt s /\ s0 = St (S (nxt s)) (inf s) /\ wfs N0 s0.
Proof.
  intros s x s0 Vs s1 c1 E W Sh. pose proof (new_reg_wfs N0 s W) as W0. rewrite E in W0. injection E as <- <-. cbn [snd] in W0. split; [|auto]. pose proof W as (W1 & W2).
  apply (shape_flat kd N0 [] [nxt s] Vs s _ s1 c1 Sh); auto; cbn [nxt inf]; auto.
  - intros n K. apply (wfs_known _ _ _ W0 K).
  - intros x [<-|[]]. lia.
Qed.
Lemma lp_app : forall lp s l1 l2, lp_ok kd lp s (l1 ++ l2) -> lp_ok kd lp s l1 /\ lp_ok kd lp s l2.
Proof. intros lp s l1 l2 H. split; intros Q n y Hn; apply (H Q n y); apply in_app_iff; auto. Qed.
Lemma lvl_app : forall l1 l2, lvl N0 (l1 ++ l2) -> lvl N0 l1 /\ lvl N0 l2.
Proof. intros l1 l2 H. split; intros n Hn; apply H; apply in_app_iff; auto. Qed.
Lemma byreg_shape : forall lp l s c lx s', load_by_reg_arg_lst fl kd lp l s = Some (c, lx, s') -> wfs N0 s -> lvl N0 (lvars l) -> lp_ok kd lp s (lvars l) ->
  shape [] (lvars l) s s' c /\ aw c = [].
Proof.
  intros lp. induction l as [|t l IH]; intros s c lx s' E W HN HLP; cbn [load_by_reg_arg_lst] in E.
  - injection E as <- <- <-. split; [apply shape_nil|reflexivity].
  - destruct (new_reg s) as (x, s0) eqn:EN. unfold load_arg in E. destruct (gen_load fl kd lp (depth t) t (T x) s0) as [(c1, s1)|] eqn:E1; [|discriminate E].
    destruct (load_by_reg_arg_lst fl kd lp l s1) as [((c2, lx2), s2)|] eqn:E2; [|discriminate E]. injection E as <- <- <-.
    change (lvars (t :: l)) with (vars t ++ lvars l) in *. apply lp_app in HLP. destruct HLP as (P1 & P2). apply lvl_app in HN. destruct HN as (N1 & N2).
    pose proof (new_reg_wfs N0 s W) as W0. rewrite EN in W0. cbn [snd] in W0.
    assert (TG : tgt_ok N0 s0 (T x)) by (injection EN as <- <-; intros y Hy; injection Hy as <-; cbn; destruct W; lia).
    assert (P1' : lp_ok kd lp s0 (vars t)) by (injection EN as <- <-; exact P1).
    pose proof (gen_load_shape fl kd N0 _ _ _ _ _ _ _ E1 W0 N1 TG P1') as S1. destruct (new_shape _ _ _ _ _ _ EN W S1) as (S1' & _).
    assert (W1 : wfs N0 s1) by (apply (shape_wfs _ _ _ _ _ _ _ S1' W); intros ? []).
    destruct (IH _ _ _ _ E2 W1 N2 (lp_ok_mono _ _ _ _ _ _ _ _ _ S1' P2)) as (S2 & A2). split.
    + apply (shape_app kd N0 [] [] _ _ _ _ _ _ _ S1' S2 W); intros ? [].
    + rewrite aw_app, A2, (gen_load_aw fl kd N0 _ _ _ _ _ _ _ E1 W0 N1 TG P1'). reflexivity.
Qed.
(** the code which loads the arguments, and the registers of the arguments *)
Definition args_code (lp : bool) (g : goal) (s : st) (c1 : list inst) (rd : list reg) (s1 : st) : Prop :=
  if g_inl g then exists lx, load_by_reg_arg_lst fl kd lp (g_args g) s = Some (c1, lx, s1) /\ rd = map T lx
  else gen_lst (load_arg fl kd lp) (reorder_body_arg_lst fl kd (arg_regs (g_args g))) s = Some (c1, s1) /\ rd = map A (seq 0 (length (g_args g))).
Lemma args_plain : forall lp g s c1 rd s1, args_code lp g s c1 rd s1 -> forallb plain c1 = true.
Proof.
  intros lp g s c1 rd s1 H. unfold args_code in H. destruct (g_inl g); [destruct H as (lx & H & _); apply (plain_byreg _ _ _ _ _ _ _ _ H)|]. destruct H as (H & _). apply (plain_lst _ _ (fun t x s c s' E => plain_load _ _ _ _ _ _ _ _ _ E) _ _ _ H).
Qed.
Lemma A_tnum : forall (l : list (reg * tm)), (forall p, In p l -> exists a, fst p = A a) -> flat_map (fun p => tnum (fst p)) l = [] /\ flat_map (fun p => anum (fst p)) l = flat_map anum (map fst l).
Proof.
  induction l as [|p l IH]; intros H; cbn; [auto|]. destruct (IH ltac:(intros p' Hp; apply H; right; exact Hp)) as (I1 & I2). destruct (H p (or_introl eq_refl)) as (a & E). rewrite E, I1, I2. auto.
Qed.
Lemma anum_map : forall l, flat_map anum (map A l) = l.
Proof. induction l as [|a l IH]; cbn; [reflexivity|]. f_equal. exact IH. Qed.
Section Lst.
Variable g : goal.
Let l := reorder_body_arg_lst fl kd (arg_regs (g_args g)).
Lemma lst_perm : Permutation l (arg_regs (g_args g)).
Proof. apply body_perm. Qed.
Lemma lst_vars : Permutation (lvars (map snd l)) (lvars (g_args g)).
Proof. apply lvars_perm. rewrite <- (arg_regs_snd (g_args g)). apply Permutation_map. apply lst_perm. Qed.
Lemma lst_regs : Permutation (map fst l) (map A (seq 0 (length (g_args g)))).
Proof. rewrite <- arg_regs_fst. apply Permutation_map. apply lst_perm. Qed.
Lemma lst_A : forall p, In p l -> exists a, fst p = A a.
Proof. intros p Hp. destruct (all_A _ [] _ lst_perm p Hp) as (a & E & _). eauto. Qed.
Lemma lst_nodup : NoDup (map fst l).
Proof. apply (Permutation_NoDup (Permutation_sym lst_regs)). apply FinFun.Injective_map_NoDup; [intros a b Q; injection Q; auto|apply seq_NoDup]. Qed.
Lemma lst_tgt : forall s p, In p l -> tgt_ok N0 s (fst p).
Proof. intros s p Hp t Q. destruct (lst_A p Hp) as (a & E). congruence. Qed.
Lemma lst_T : forall (P : nat -> Prop) y, In (T y) (map fst l) -> ~ P y.
Proof. intros P y Hy. apply in_map_iff in Hy. destruct Hy as (p & E & Hp). destruct (lst_A p Hp) as (a & E'). congruence. Qed.
End Lst.
Lemma args_shape : forall lp g s c1 rd s1, args_code lp g s c1 rd s1 -> wfs N0 s -> lvl N0 (lvars (g_args g)) -> lp_ok kd lp s (lvars (g_args g)) -> KV s ->
  shape [] (lvars (g_args g)) s s1 c1 /\ NoDup (aw c1) /\ (forall a, In a (aw c1) -> g_inl g = false /\ a < length (g_args g)).
Proof.
  intros lp g s c1 rd s1 H W HN HLP HK. unfold args_code in H. destruct (g_inl g) eqn:EG.
  - destruct H as (lx & H & _). destruct (byreg_shape _ _ _ _ _ _ H W HN HLP) as (S1 & A1). split; [exact S1|]. rewrite A1. split; [constructor|intros a []].
  - destruct H as (H & _). pose proof (lst_vars g) as PV. set (l := reorder_body_arg_lst fl kd (arg_regs (g_args g))) in *.
    assert (IV : forall n, In n (lvars (map snd l)) <-> In n (lvars (g_args g))) by (intros n; split; apply Permutation_in; [exact PV|symmetry; exact PV]).
    destruct (gen_lst_load_complete unit (fun _ => tt) (fun _ _ => tt) fl kd N0 lp (load_arg fl kd lp) l) with (s := s) (c := c1) (s' := s1) as (S1 & A1 & _); auto.
    + intros p _ sa ca sb Ea. split; [exists (depth (snd p)); exact Ea|]. apply (gen_load_complete _ _ _ fl kd N0 kd_inj _ _ _ _ _ _ _ Ea).
    + intros n Hn. apply HN. apply IV. exact Hn.
    + intros p Hp. apply (lst_tgt g s p Hp).
    + apply (lst_nodup g).
    + intros Q n y Hn. apply (HLP Q n y). apply IV. exact Hn.
    + destruct (A_tnum l) as (T1 & T2); [intros p Hp; apply (lst_A g p Hp)|]. rewrite T1 in S1. rewrite T2 in A1. split; [apply (shape_incl _ _ _ _ _ _ _ _ S1 IV)|].
      assert (PA : Permutation (aw c1) (seq 0 (length (g_args g)))) by (rewrite A1, <- anum_map; apply Permutation_flat_map; apply (lst_regs g)).
      split; [apply (Permutation_NoDup (Permutation_sym PA)); apply seq_NoDup|]. intros a Ha. split; [reflexivity|]. apply (Permutation_in _ PA) in Ha. apply in_seq in Ha. lia.
Qed.

Section Vals.
Variable V : Type.
Variable cst : const -> V.
Variable fn : nat -> list V -> V.
Notation eval := (eval V cst fn).
Notation ms := (ms V).
Notation mg := (mg V).
Notation envok := (envok V kd N0).
Notation agree := (agree V kd N0).
Notation pagree := (pagree V kd N0).
Notation exec := (exec V cst fn).
Notation pexec := (pexec V cst fn).
Definition no_p (n : nat) : Prop := False.
Lemma chg_new : forall s x s0 s1 Vs n, new_reg s = (x, s0) -> chg s0 s1 Vs n -> chg s s1 Vs n.
Proof. intros s x s0 s1 Vs n E [H|H]; injection E as <- <-; [left; exact H|right; cbn in H; lia]. Qed.
Lemma byreg_sound : forall lp l s c lx s', load_by_reg_arg_lst fl kd lp l s = Some (c, lx, s') -> wfs N0 s -> lvl N0 (lvars l) -> lp_ok kd lp s (lvars l) -> KV s -> NoDup (vo kd (lvars l)) ->
  forall L : nat -> Prop, (forall n, In n (lvars l) -> kd n = KX -> L n) ->
  forall m q m' q' e, exec c m q m' q' -> ms q = [] -> envok q -> agree L no_p s e m q ->
  exists e', (forall n, chg s s' (lvars l) n \/ e' n = e n) /\ map m' (map T lx) = map (eval e') l /\ ms q' = [] /\ mg q' = mg q /\ envok q' /\ agree L no_p s' e' m' q'.
Proof.
  intros lp. induction l as [|t l IH]; intros s c lx s' E W HN HLP HK ND L HL m q m' q' e H MS EO AG; cbn [load_by_reg_arg_lst] in E.
  - injection E as <- <- <-. destruct H as (-> & ->). exists e. repeat (split; [auto|]). exact AG.
  - destruct (new_reg s) as (x, s0) eqn:EN. unfold load_arg in E. destruct (gen_load fl kd lp (depth t) t (T x) s0) as [(c1, s1)|] eqn:E1; [|discriminate E].
    destruct (load_by_reg_arg_lst fl kd lp l s1) as [((c2, lx2), s2)|] eqn:E2; [|discriminate E]. injection E as <- <- <-.
    change (lvars (t :: l)) with (vars t ++ lvars l) in *. apply lp_app in HLP. destruct HLP as (P1 & P2). apply lvl_app in HN. destruct HN as (N1 & N2). apply vo_split in ND. destruct ND as (D1 & D2 & D3).
    pose proof (new_reg_wfs N0 s W) as W0. rewrite EN in W0. cbn [snd] in W0.
    assert (TG : tgt_ok N0 s0 (T x)) by (injection EN as <- <-; intros y Hy; injection Hy as <-; cbn; destruct W; lia).
    assert (P1' : lp_ok kd lp s0 (vars t)) by (injection EN as <- <-; exact P1).
    pose proof (gen_load_shape fl kd N0 _ _ _ _ _ _ _ E1 W0 N1 TG P1') as S1. destruct (new_shape _ _ _ _ _ _ EN W S1) as (S1' & EX & ES & _).
    assert (W1 : wfs N0 s1) by (apply (shape_wfs _ _ _ _ _ _ _ S1' W); intros ? []).
    pose proof (lp_ok_mono _ _ _ _ _ _ _ _ _ S1' P2) as P2'. destruct (byreg_shape _ _ _ _ _ _ E2 W1 N2 P2') as (S2 & A2).
    apply exec_app in H. destruct H as (m1 & q1 & H1 & H2).
    destruct (gen_load_sound V cst fn fl kd N0 kd_inj _ _ _ _ _ _ _ E1 W0 N1 TG P1' ltac:(subst s0; exact HK) D1 L ltac:(intros n Hn; apply HL; apply in_app_iff; auto) no_p m q m1 q1 e) as (e1 & C1 & X1 & M1 & G1 & O1 & AG1); auto; try (intros ? []); try (intros ? ? []).
    { subst s0. destruct AG; constructor; auto. }
    assert (HK1 : KV s1) by (apply (KV_mono _ _ _ _ _ _ _ S1' HK); [apply W|intros ? []]).
    destruct (IH _ _ _ _ E2 W1 N2 P2' HK1 D2 L ltac:(intros n Hn; apply HL; apply in_app_iff; auto) m1 q1 m' q' e1 H2 M1 O1 AG1) as (e2 & C2 & X2 & M2 & G2 & O2 & AG2).
    pose proof (sh_nxt _ _ _ _ _ _ _ S2) as L2. pose proof (sh_nxt _ _ _ _ _ _ _ S1) as L1.
    exists e2. split; [|split; [|split; [exact M2|split; [congruence|split; [exact O2|exact AG2]]]]].
    + intros n. destruct (C2 n) as [Q|Q]; [left; apply (chg_app unit (fun _ _ => tt) kd N0 _ _ _ _ _ _ _ _ S1' L2); auto|]. destruct (C1 n) as [Q1|Q1]; [|right; congruence]. left. apply (chg_app unit (fun _ _ => tt) kd N0 _ _ _ _ _ _ _ _ S1' L2). left. apply (chg_new _ _ _ _ _ _ EN Q1).
    + cbn [map]. f_equal; [|exact X2]. rewrite (keeps V cst fn kd N0 _ _ _ _ _ _ _ _ _ (T x) S2 H2).
      * rewrite X1. apply eval_ext. intros n Hn. destruct (C2 n) as [Q|Q]; [|congruence]. exfalso. revert Q. apply (not_chg kd N0 _ _ _ _ _ _ _ S1' N1 W D3 n Hn).
      * intros a Q. discriminate Q.
      * intros y Q. injection Q as <-. split; [|intros []]. specialize (TG x eq_refl). lia.
Qed.
Lemma args_sound : forall lp g s c1 rd s1, args_code lp g s c1 rd s1 -> wfs N0 s -> lvl N0 (lvars (g_args g)) -> lp_ok kd lp s (lvars (g_args g)) -> KV s -> NoDup (vo kd (lvars (g_args g))) ->
  forall L : nat -> Prop, (forall n, In n (lvars (g_args g)) -> kd n = KX -> L n) ->
  forall m q m' q' e, exec c1 m q m' q' -> ms q = [] -> envok q -> agree L no_p s e m q ->
  exists e', (forall n, chg s s1 (lvars (g_args g)) n \/ e' n = e n) /\ map m' rd = map (eval e') (g_args g) /\ ms q' = [] /\ mg q' = mg q /\ envok q' /\ agree L no_p s1 e' m' q'.
Proof.
  intros lp g s c1 rd s1 H W HN HLP HK ND L HL m q m' q' e HE MS EO AG. unfold args_code in H. destruct (g_inl g) eqn:EG.
  - destruct H as (lx & H & ->). apply (byreg_sound _ _ _ _ _ _ H W HN HLP HK ND L HL m q m' q' e HE MS EO AG).
  - destruct H as (H & ->). pose proof (lst_vars g) as PV. set (l := reorder_body_arg_lst fl kd (arg_regs (g_args g))) in *.
    assert (IV : forall n, In n (lvars (map snd l)) <-> In n (lvars (g_args g))) by (intros n; split; apply Permutation_in; [exact PV|symmetry; exact PV]).
    destruct (gen_lst_load_sound V cst fn fl kd N0 lp (load_arg fl kd lp) l) with (s := s) (c := c1) (s' := s1) as (_ & _ & LS); auto.
    + intros p _ sa ca sb Ea. split; [exists (depth (snd p)); exact Ea|]. apply (gen_load_sound V cst fn fl kd N0 kd_inj _ _ _ _ _ _ _ Ea).
    + intros n Hn. apply HN. apply IV. exact Hn.
    + intros p Hp. apply (lst_tgt g s p Hp).
    + apply (lst_nodup g).
    + intros Q n y Hn. apply (HLP Q n y). apply IV. exact Hn.
    + apply (vo_nodup_perm kd _ _ (Permutation_sym PV) ND).
    + destruct (LS L ltac:(intros n Hn; apply HL; apply IV; exact Hn) no_p m q m' q' e) as (e' & C1 & X1 & R); auto.
      all: try (intros y []).
      exists e'. split; [intros n; destruct (C1 n) as [[(Q1 & Q2)|Q]|Q]; [left; left; split; [apply IV; exact Q1|exact Q2]|left; right; exact Q|right; exact Q]|].
      split; [|exact R]. apply regs_values. intros x t Hx. apply X1. apply (Permutation_in _ (Permutation_sym (lst_perm g))). exact Hx.
Qed.
Lemma byreg_complete : forall lp l s c lx s', load_by_reg_arg_lst fl kd lp l s = Some (c, lx, s') -> wfs N0 s -> lvl N0 (lvars l) -> lp_ok kd lp s (lvars l) -> KV s ->
  forall L : nat -> Prop, (forall n, In n (lvars l) -> kd n = KX -> L n) ->
  forall d q e, ms q = [] -> envok q -> pagree L no_p s e d q ->
  exists d' q', pexec c d q d' q' /\ map d' (map T lx) = map Some (map (eval e) l) /\ done V kd N0 L no_p s' e q d' q'.
Proof.
  intros lp. induction l as [|t l IH]; intros s c lx s' E W HN HLP HK L HL d q e MS EO AG; cbn [load_by_reg_arg_lst] in E.
  - injection E as <- <- <-. exists d, q. split; [cbn; auto|]. split; [reflexivity|]. split; [exact MS|auto].
  - destruct (new_reg s) as (x, s0) eqn:EN. unfold load_arg in E. destruct (gen_load fl kd lp (depth t) t (T x) s0) as [(c1, s1)|] eqn:E1; [|discriminate E].
    destruct (load_by_reg_arg_lst fl kd lp l s1) as [((c2, lx2), s2)|] eqn:E2; [|discriminate E]. injection E as <- <- <-.
    change (lvars (t :: l)) with (vars t ++ lvars l) in *. apply lp_app in HLP. destruct HLP as (P1 & P2). apply lvl_app in HN. destruct HN as (N1 & N2).
    pose proof (new_reg_wfs N0 s W) as W0. rewrite EN in W0. cbn [snd] in W0.
    assert (TG : tgt_ok N0 s0 (T x)) by (injection EN as <- <-; intros y Hy; injection Hy as <-; cbn; destruct W; lia).
    assert (P1' : lp_ok kd lp s0 (vars t)) by (injection EN as <- <-; exact P1).
    pose proof (gen_load_shape fl kd N0 _ _ _ _ _ _ _ E1 W0 N1 TG P1') as S1. destruct (new_shape _ _ _ _ _ _ EN W S1) as (S1' & EX & ES & _).
    assert (W1 : wfs N0 s1) by (apply (shape_wfs _ _ _ _ _ _ _ S1' W); intros ? []).
    pose proof (lp_ok_mono _ _ _ _ _ _ _ _ _ S1' P2) as P2'. destruct (byreg_shape _ _ _ _ _ _ E2 W1 N2 P2') as (S2 & A2).
    destruct (gen_load_complete V cst fn fl kd N0 kd_inj _ _ _ _ _ _ _ E1 W0 N1 TG P1' ltac:(subst s0; exact HK) L ltac:(intros n Hn; apply HL; apply in_app_iff; auto) no_p d q e) as (d1 & q1 & H1 & X1 & M1 & G1 & O1 & AG1); auto; try (intros ? []); try (intros ? ? []).
    { subst s0. destruct AG; constructor; auto. }
    assert (HK1 : KV s1) by (apply (KV_mono _ _ _ _ _ _ _ S1' HK); [apply W|intros ? []]).
    destruct (IH _ _ _ _ E2 W1 N2 P2' HK1 L ltac:(intros n Hn; apply HL; apply in_app_iff; auto) d1 q1 e M1 O1 AG1) as (d2 & q2 & H2 & X2 & M2 & G2 & O2 & AG2).
    pose proof (sh_nxt _ _ _ _ _ _ _ S2) as L2. pose proof (sh_nxt _ _ _ _ _ _ _ S1) as L1.
    exists d2, q2. split; [apply pexec_app; eauto|]. split; [|split; [exact M2|split; [congruence|split; [exact O2|exact AG2]]]].
    cbn [map]. f_equal; [|exact X2]. rewrite (pkeeps V cst fn kd N0 _ _ _ _ _ _ _ _ _ (T x) S2 H2); [exact X1| |].
    + intros a Q. discriminate Q.
    + intros y Q. injection Q as <-. split; [|intros []]. specialize (TG x eq_refl). lia.
Qed.
Lemma args_complete : forall lp g s c1 rd s1, args_code lp g s c1 rd s1 -> wfs N0 s -> lvl N0 (lvars (g_args g)) -> lp_ok kd lp s (lvars (g_args g)) -> KV s ->
  forall L : nat -> Prop, (forall n, In n (lvars (g_args g)) -> kd n = KX -> L n) ->
  forall d q e, ms q = [] -> envok q -> pagree L no_p s e d q ->
  exists d' q', pexec c1 d q d' q' /\ map d' rd = map Some (map (eval e) (g_args g)) /\ done V kd N0 L no_p s1 e q d' q'.
Proof.
  intros lp g s c1 rd s1 H W HN HLP HK L HL d q e MS EO AG. unfold args_code in H. destruct (g_inl g) eqn:EG.
  - destruct H as (lx & H & ->). apply (byreg_complete _ _ _ _ _ _ H W HN HLP HK L HL d q e MS EO AG).
  - destruct H as (H & ->). pose proof (lst_vars g) as PV. set (l := reorder_body_arg_lst fl kd (arg_regs (g_args g))) in *.
    assert (IV : forall n, In n (lvars (map snd l)) <-> In n (lvars (g_args g))) by (intros n; split; apply Permutation_in; [exact PV|symmetry; exact PV]).
    destruct (gen_lst_load_complete V cst fn fl kd N0 lp (load_arg fl kd lp) l) with (s := s) (c := c1) (s' := s1) as (_ & _ & LS); auto.
    + intros p _ sa ca sb Ea. split; [exists (depth (snd p)); exact Ea|]. apply (gen_load_complete V cst fn fl kd N0 kd_inj _ _ _ _ _ _ _ Ea).
    + intros n Hn. apply HN. apply IV. exact Hn.
    + intros p Hp. apply (lst_tgt g s p Hp).
    + apply (lst_nodup g).
    + intros Q n y Hn. apply (HLP Q n y). apply IV. exact Hn.
    + destruct (LS L ltac:(intros n Hn; apply HL; apply IV; exact Hn) no_p d q e) as (d' & q' & H1 & X1 & R); auto.
      all: try (intros y []).
      exists d', q'. split; [exact H1|]. split; [|exact R]. rewrite (map_map (eval e) Some). apply (regs_values _ d' (fun t => Some (eval e t))). intros x t Hx. apply X1. apply (Permutation_in _ (Permutation_sym (lst_perm g))). exact Hx.
Qed.
End Vals.
End Goals.
