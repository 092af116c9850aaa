(** Proofs about the propagation queue and the posting of constraints. *)
Require Import ZArith List Bool Lia Sorted.
Require Import Verif.Heap_Model Verif.FdRange_Model Verif.FdRange_Spec Verif.FdRange_Proofs Verif.FdRange_Set Verif.FdTell_Model Verif.FdTell_Spec Verif.FdTell_Proofs Verif.FdProp_Model Verif.FdProp_Spec Verif.FdProp_Proofs.
Import ListNotations.
Open Scope Z_scope.

Fixpoint linked (nx : nat -> nat) (q : list nat) : Prop :=
  match q with u :: r => match r with w :: _ => nx u = w | [] => True end /\ linked nx r | [] => True end.
Lemma linked_ext nx nx' q : (forall u, In u q -> nx u = nx' u) -> linked nx q -> linked nx' q.
Proof.
  induction q as [|u q IH]; cbn; auto. intros E [L1 L2]. split; [|apply IH; auto]. destruct q; [auto|]. rewrite <- E; auto.
Qed.
Lemma last_in (q : list nat) : q <> [] -> In (last q 0%nat) q.
Proof. induction q as [|u q IH]; [congruence|]. intros _. destruct q as [|w q]; [left; reflexivity|right; apply IH; discriminate]. Qed.
Lemma last_end (q : list nat) v : last (q ++ [v]) 0%nat = v.
Proof. induction q as [|u q IH]; [reflexivity|]. cbn [app]. destruct (q ++ [v]) eqn:E; [destruct q; discriminate|]. cbn [last] in *. exact IH. Qed.
Lemma linked_app nx q v : linked nx q -> q <> [] -> NoDup q -> linked (fun u => if Nat.eqb u (last q 0%nat) then v else nx u) (q ++ [v]).
Proof.
  induction q as [|u q IH]; [congruence|]. intros [L1 L2] _ N. inversion N as [|? ? N1 N2]; subst. destruct q as [|w q].
  - cbn. rewrite Nat.eqb_refl. auto.
  - cbn [app linked]. split; [|apply IH; auto; discriminate]. cbn [last]. change (match q with [] => w | _ :: _ => last q 0%nat end) with (last (w :: q) 0%nat). destruct (Nat.eqb_spec u (last (w :: q) 0%nat)) as [E|E]; [|exact L1].
    exfalso. apply N1. rewrite E. apply last_in. discriminate.
Qed.
Definition upd {X} (f : nat -> X) v y : nat -> X := fun u => if Nat.eqb u v then y else f u.
Lemma bit_high m i : 0 <= m < 32 -> 5 <= i -> Z.testbit m i = false.
Proof.
  intros M I. rewrite Z.testbit_false by lia. rewrite Z.div_small; [reflexivity|]. assert (2 ^ 5 <= 2 ^ i) by (apply Z.pow_le_mono_r; lia). change (2 ^ 5) with 32 in *. lia.
Qed.

Ltac bs := repeat (cbn -[last]; match goal with |- context [Nat.eqb ?x ?x] => rewrite (Nat.eqb_refl x) | |- context [Nat.eqb ?x ?y] => is_var x; is_var y; destruct (Nat.eqb_spec x y); [subst x || subst y|] end); cbn -[last]; auto; try congruence.
Record queue (q : list nat) (s : st) : Prop := {
  q_nd : NoDup q;
  q_mk : forall v, In v q <-> qmask (vars s v) <> 0;
  q_lk : linked (fun v => qnext (vars s v)) q;
  q_tp : tp s = match q with [] => None | _ => Some (last q 0%nat) end }.
Definition dn (q : list nat) (s : st) : Prop := match q with [] => True | v :: _ => dnext s = v end.
(** what a tell does not touch *)
Record frame (s s' : st) : Prop := {
  f_cfs : cfs s' = cfs s;
  f_DATE : DATE s' = DATE s;
  f_cm : forall u, cmask (vars s' u) = cmask (vars s u);
  f_ch : forall u c, chs (vars s' u) c = chs (vars s u) c }.
Lemma frame_refl s : frame s s. Proof. split; auto. Qed.
Lemma frame_trans s s' s'' : frame s s' -> frame s' s'' -> frame s s''.
Proof. intros [A B C D] [A' B' C' D']. split; intros; congruence. Qed.

Lemma ap_ok q s v m : queue q s -> 0 <= cmask (vars s v) ->
  exists e, let s' := All_Propagations s v m in queue (q ++ e) s' /\ frame s s' /\ (dn q s -> dn (q ++ e) s') /\
    (forall u, fd (vars s' u) = fd (vars s u) /\ date (vars s' u) = date (vars s u)) /\
    (forall u, 0 <= qmask (vars s u) -> 0 <= qmask (vars s' u)) /\
    (forall u i, 0 <= i -> Z.testbit (qmask (vars s' u)) i = Z.testbit (qmask (vars s u)) i || (Nat.eqb u v && Z.testbit m i && Z.testbit (cmask (vars s u)) i)) /\
    (e = [] \/ (e = [v] /\ Z.land m (cmask (vars s v)) <> 0)).
Proof.
  intros Q C. unfold All_Propagations. cbv zeta. set (p := Z.land m (cmask (vars s v))).
  assert (Pb : forall i, Z.testbit p i = Z.testbit m i && Z.testbit (cmask (vars s v)) i) by (intros; apply Z.land_spec).
  assert (P0 : 0 <= p) by (apply Z.land_nonneg; auto). destruct (Z.eqb_spec p 0) as [E|E].
  { exists []. rewrite app_nil_r. split; [exact Q|]. split; [apply frame_refl|]. split; [auto|]. split; [auto|]. split; [auto|]. split; [|auto]. intros u i I. destruct (Nat.eqb_spec u v) as [->|]; [|now rewrite orb_false_r]. rewrite andb_true_l, <- Pb, E, Z.bits_0. now rewrite orb_false_r. }
  destruct Q as [N M L T]. destruct (Z.eqb_spec (qmask (vars s v)) 0) as [E0|E0].
  - exists [v]. assert (Nv : ~ In v q) by (intros I; apply M in I; contradiction).
    assert (Base : forall s', (forall u, qmask (vars s' u) = if Nat.eqb u v then p else qmask (vars s u)) -> NoDup (q ++ [v]) /\ (forall u, In u (q ++ [v]) <-> qmask (vars s' u) <> 0) /\
       (forall u, 0 <= qmask (vars s u) -> 0 <= qmask (vars s' u)) /\ (forall u i, 0 <= i -> Z.testbit (qmask (vars s' u)) i = Z.testbit (qmask (vars s u)) i || (Nat.eqb u v && Z.testbit m i && Z.testbit (cmask (vars s u)) i))).
    { intros s' H. split; [|split; [|split]].
      - clear - N Nv. induction N as [|x q X N IH]; cbn; [repeat constructor; intros []|]. constructor; [|apply IH; firstorder]. rewrite in_app_iff. cbn. intros [G|[G|[]]]; [auto|]. subst. apply Nv. now left.
      - intros u. rewrite in_app_iff, H. cbn. destruct (Nat.eqb_spec u v) as [->|D]; [tauto|]. rewrite M. intuition.
      - intros u. rewrite H. destruct (Nat.eqb u v); auto.
      - intros u i I. rewrite H. destruct (Nat.eqb_spec u v) as [->|D]; [|now rewrite orb_false_r]. rewrite E0, Z.bits_0, Pb. reflexivity. }
    destruct (tp s) as [t|] eqn:Et; cbn [set_qmask setv tp]; rewrite Et.
    + destruct q as [|b q]; [discriminate|]. assert (Tt : t = last (b :: q) 0%nat) by congruence. clear T. match goal with |- queue _ ?x /\ _ => destruct (Base x) as [B1 [B2 [B3 B4]]] end.
      { intros u. cbn -[last]. destruct (Nat.eqb_spec u t) as [E2|E2]; [rewrite <- E2|]; cbn -[last]; destruct (Nat.eqb_spec u v) as [->|]; reflexivity. }
      split; [|split; [|split; [|split; [|split; [|split]]]]].
      * split; [exact B1|exact B2| |].
        -- apply (linked_ext (fun u => if Nat.eqb u (last (b :: q) 0%nat) then v else qnext (vars s u))); [|apply linked_app; auto; discriminate]. intros u _. rewrite <- Tt. cbn -[last]. destruct (Nat.eqb_spec u t) as [->|D]; cbn; [reflexivity|]. destruct (Nat.eqb_spec u v) as [->|]; reflexivity.
        -- cbn [set_tp tp]. rewrite last_end. destruct q; reflexivity.
      * clear B1 B2 B3 B4 Tt. split; auto; intros u; intros; bs.
      * cbn. auto.
      * clear B1 B2 B3 B4 Tt. intros u. bs.
      * exact B3.
      * exact B4.
      * auto.
    + destruct q; [|discriminate]. match goal with |- queue _ ?x /\ _ => destruct (Base x) as [B1 [B2 [B3 B4]]] end; [intros u; cbn; destruct (Nat.eqb u v); reflexivity|].
      split; [|split; [|split; [|split; [|split; [|split]]]]]; auto.
      * split; auto. cbn. auto.
      * split; cbn; auto; intros u; intros; destruct (Nat.eqb_spec u v) as [->|]; reflexivity.
      * cbn. auto.
      * intros u. cbn. destruct (Nat.eqb_spec u v) as [->|]; auto.
  - exists []. rewrite app_nil_r.
    assert (H : forall u, qmask (vars (set_qmask s v (Z.lor (qmask (vars s v)) p)) u) = if Nat.eqb u v then Z.lor (qmask (vars s v)) p else qmask (vars s u)) by (intros u; cbn; destruct (Nat.eqb u v); reflexivity).
    split; [|split; [|split; [|split; [|split; [|split]]]]]; auto.
    + split; auto.
      * intros u. rewrite H, M. destruct (Nat.eqb_spec u v) as [->|D]; [|tauto]. split; [|auto]. intros _ G. apply Z.lor_eq_0_iff in G. tauto.
      * apply (linked_ext (fun u => qnext (vars s u))); auto. intros u _. cbn. destruct (Nat.eqb_spec u v) as [->|]; reflexivity.
    + split; cbn; auto; intros u; intros; destruct (Nat.eqb_spec u v) as [->|]; reflexivity.
    + intros u. cbn. destruct (Nat.eqb_spec u v) as [->|]; auto.
    + intros u G. rewrite H. destruct (Nat.eqb_spec u v) as [->|]; [|exact G]. apply Z.lor_nonneg. auto.
    + intros u i I. rewrite H. destruct (Nat.eqb_spec u v) as [->|D]; [|now rewrite orb_false_r]. rewrite Z.lor_spec, Pb. reflexivity.
Qed.
Lemma clear_ok : forall q fuel s bp, linked (fun v => qnext (vars s v)) (bp :: q) -> NoDup (bp :: q) -> (length (bp :: q) <= fuel)%nat -> (forall v, qmask (vars s v) <> 0 -> In v (bp :: q)) ->
  exists s', clear_loop fuel s bp (last (bp :: q) 0%nat) = Ret s' /\ (forall v, qmask (vars s' v) = 0) /\ tp s' = None /\ frame s s'.
Proof.
  assert (F0 : forall s bp, frame s (set_qmask s bp 0)) by (intros s bp; split; cbn; auto; intros u; intros; destruct (Nat.eqb_spec u bp) as [->|]; reflexivity).
  induction q as [|w q IH]; intros fuel s bp L N Le M; (destruct fuel as [|fuel]; [cbn in Le; lia|]); cbn [clear_loop].
  - cbn [last]. rewrite Nat.eqb_refl. eexists. split; [reflexivity|]. split; [|split; [reflexivity|]].
    + intros v. cbn. destruct (Nat.eqb_spec v bp) as [->|D]; [reflexivity|]. destruct (Z.eq_dec (qmask (vars s v)) 0) as [E|E]; [exact E|]. apply M in E. destruct E as [E|[]]. congruence.
    + apply (frame_trans _ _ _ (F0 s bp)). split; auto.
  - inversion N as [|? ? N1 N2]; subst. change (last (bp :: w :: q) 0%nat) with (last (w :: q) 0%nat). destruct (Nat.eqb_spec bp (last (w :: q) 0%nat)) as [E|E]; [exfalso; apply N1; rewrite E; apply last_in; discriminate|].
    assert (Ew : qnext (vars (set_qmask s bp 0) bp) = w) by (cbn; rewrite Nat.eqb_refl; cbn; apply L). rewrite Ew.
    destruct (IH fuel (set_qmask s bp 0) w) as [s' [S1 [S2 [S3 S4]]]].
    + apply (linked_ext (fun v => qnext (vars s v))); [|apply L]. intros u _. cbn. destruct (Nat.eqb_spec u bp) as [->|]; reflexivity.
    + exact N2.
    + cbn in Le |- *. lia.
    + intros v. cbn. destruct (Nat.eqb_spec v bp) as [->|D]; cbn; [congruence|]. intros G. apply M in G. destruct G as [G|G]; [congruence|exact G].
    + exists s'. split; [exact S1|]. split; [exact S2|]. split; [exact S3|]. exact (frame_trans _ _ _ (F0 s bp) S4).
Qed.
Lemma Clear_Queue_ok q s fuel : queue q s -> dn q s -> (length q <= fuel)%nat -> exists s', Clear_Queue fuel s = Ret s' /\ (forall v, qmask (vars s' v) = 0) /\ tp s' = None /\ frame s s'.
Proof.
  intros [N M L T] D Le. unfold Clear_Queue. rewrite T. destruct q as [|b q].
  - exists s. split; [reflexivity|]. split; [|split; [exact T|apply frame_refl]]. intros v. destruct (Z.eq_dec (qmask (vars s v)) 0) as [E|E]; [exact E|]. apply M in E. destruct E.
  - rewrite D. apply clear_ok; auto. intros v. apply M.
Qed.

(** ** The invariant of propagation *)
Fixpoint sum (l : list nat) : nat := match l with [] => 0%nat | x :: l => (x + sum l)%nat end.
Definition mu (nv : nat) (s : nat -> fdv) : nat := sum (map (fun v => Z.to_nat (nb_elem (s v))) (seq 0 nv)).
Lemma sum_upd (g g' : nat -> nat) v : (forall u, u <> v -> g' u = g u) -> forall l, NoDup l -> In v l -> (sum (map g' l) + g v = sum (map g l) + g' v)%nat.
Proof.
  intros E. assert (Same : forall l, ~ In v l -> sum (map g' l) = sum (map g l)) by (induction l as [|w l IH]; cbn; auto; intros N; rewrite E, IH; auto; intros ->; apply N; now left).
  induction l as [|w l IH]; intros N I; [destruct I|]. inversion N as [|? ? N1 N2]; subst. cbn. destruct I as [->|I].
  - rewrite (Same l N1). lia.
  - specialize (IH N2 I). rewrite (E w); [lia|]. intros ->. contradiction.
Qed.
Lemma mu_upd nv s s' v : (v < nv)%nat -> (forall u, u <> v -> s' u = s u) -> (mu nv s' + Z.to_nat (nb_elem (s v)) = mu nv s + Z.to_nat (nb_elem (s' v)))%nat.
Proof. intros L E. apply (sum_upd (fun v => Z.to_nat (nb_elem (s v))) (fun v => Z.to_nat (nb_elem (s' v))) v); [intros u U; now rewrite E|apply seq_NoDup|apply in_seq; lia]. Qed.
Lemma mu_ge nv s v : (v < nv)%nat -> (Z.to_nat (nb_elem (s v)) <= mu nv s)%nat.
Proof.
  intros L. unfold mu. assert (I : In v (seq 0 nv)) by (apply in_seq; lia). induction (seq 0 nv) as [|w l IH]; [destruct I|]. cbn. destruct I as [->|I]; [lia|]. specialize (IH I). lia.
Qed.
Definition cons_of (c : cframe) : cstr := (af c, cfct c).
Definition pending (s : st) (id : nat) : Prop := exists v ch, (ch < 5)%nat /\ In id (chs (vars s v) ch) /\ Z.testbit (qmask (vars s v)) (Z.of_nat ch) = true.

Section E.
Variable sz : nat.
Hypothesis small : 64 * Z.of_nat sz <= 2 ^ 28.
Variable junk : list Z.
Variable a : around.
Hypothesis J : vok sz junk.
Hypothesis A : around_ok a.
(** the store when the constraint is posted, the meaning of the constraints, a bound of the variables *)
Variable s0 : nat -> fdv.
Variable P : (nat -> Z) -> Prop.
Variable nv : nat.

Definition okc (c : cstr) : Prop := safe sz s0 c /\ sound sz P c /\ framed c /\ exists v, target c = Some v /\ (v < nv)%nat.
(** a constraint whose target was bound when the constraint was posted *)
Definition was_bound (c : cstr) : Prop := exists v, target c = Some v /\ is_ground (s0 v) = true.
Record chains (s : st) (n : nat) : Prop := {
  c_cm : forall v, 0 <= cmask (vars s v) < 32;
  c_ch : forall v c, (c < 5)%nat -> Z.testbit (cmask (vars s v)) (Z.of_nat c) = true <-> chs (vars s v) c <> [];
  c_id : forall v c id, In id (chs (vars s v) c) -> (id < n)%nat }.
Record inv (B : option nat) (q : list nat) (s : st) : Prop := {
  i_q : queue q s;
  i_c : chains s (length (cfs s));
  i_cv : cvars sz (store s);
  i_sm : smaller (store s) s0;
  i_bq : forall b, B = Some b -> exists r, q = b :: r;
  i_mb : forall v i, 0 <= i -> Z.testbit (qmask (vars s v)) i = true -> Z.testbit (cmask (vars s v)) i = true \/ (B = Some v /\ i = 8);
  i_mp : forall v, 0 <= qmask (vars s v);
  i_dp : forall id c, nth_error (cfs s) id = Some c -> forall i ch v, In (i, ch) (block_deps (length (af c)) (cfct c)) -> nth_error (af c) i = Some (AV v) ->
           In id (chs (vars s v) ch) \/ is_ground (store s v) = true;
  i_op : forall id c, nth_error (cfs s) id = Some c -> optim c = None \/ optim c = target (cons_of c);
  i_dt : forall v, is_ground (s0 v) = false -> date (vars s v) = DATE_ALWAYS \/ date (vars s v) = DATE s;
  i_da : forall v, is_ground (store s v) = false -> date (vars s v) = DATE_ALWAYS;
  i_ok : forall id c, nth_error (cfs s) id = Some c -> okc (cons_of c) }.
Definition pinv (pend : list nat) (s : st) : Prop := forall id c, nth_error (cfs s) id = Some c ->
  stable (store s) (cons_of c) \/ was_bound (cons_of c) \/ pending s id \/ In id pend.
Definition flag (B : option nat) (s : st) : nat := match B with Some b => if Z.land (qmask (vars s b)) 255 =? 0 then 0%nat else 1%nat | None => 0%nat end.
Definition Psi (B : option nat) (q : list nat) (s : st) : nat := (mu nv (store s) + length q + flag B s)%nat.

Lemma ground_mono s s' v : cvars sz s -> cvars sz s' -> (forall n, dom (s' v) n -> dom (s v) n) -> is_ground (s v) = true -> is_ground (s' v) = true /\ forall n, dom (s v) n -> dom (s' v) n.
Proof.
  intros C C' S G. unfold is_ground in *. destruct (tagv (s v)) as [m|] eqn:T; [|discriminate]. assert (T' : tagv (s v) = tagv (s' v)) by (apply (tag_same sz); auto; intros [Q _]; congruence). rewrite <- T', T. split; [reflexivity|].
  intros n. rewrite (bound sz _ m (proj1 (C v)) T). rewrite T in T'. rewrite (bound sz _ m (proj1 (C' v)) (eq_sym T')). auto.
Qed.
(** a block whose dependencies are not touched *)
Lemma untouched s s' v m f b : cvars sz s -> cvars sz s' -> (forall u, u <> v -> s' u = s u) -> (forall n, dom (s' v) n -> dom (s v) n) -> events (s v) (s' v) m ->
  reads s s' f b \/ exists i ch, In (i, ch) (block_deps (length f) b) /\ nth_error f i = Some (AV v) /\ Z.testbit m (Z.of_nat ch) = true.
Proof.
  intros C C' Ot Sub Ev. set (test := fun p : nat * nat => match nth_error f (fst p) with Some (AV u) => Nat.eqb u v && Z.testbit m (Z.of_nat (snd p)) | _ => false end).
  destruct (existsb test (block_deps (length f) b)) eqn:E.
  - right. apply existsb_exists in E. destruct E as [[i ch] [I E]]. unfold test in E. cbn [fst snd] in E. exists i, ch. destruct (nth_error f i) as [[u|]|]; try discriminate. apply andb_true_iff in E. destruct E as [E1 E2]. apply Nat.eqb_eq in E1. subst u. auto.
  - left. intros i ch u I N. destruct (Nat.eq_dec u v) as [->|D].
    + apply (no_event sz _ _ m); auto; [|now apply (block_deps_lt _ _ _ _ I)]. assert (Ef : test (i, ch) = false). { destruct (test (i, ch)) eqn:Q; [|reflexivity]. rewrite <- E. symmetry. apply existsb_exists. eauto. }
      unfold test in Ef. cbn [fst snd] in Ef. rewrite N, Nat.eqb_refl in Ef. exact Ef.
    + rewrite (Ot u D). destruct ch as [|[|[|[|ch]]]]; cbn; tauto.
Qed.
Lemma stable_reads s s' c : cvars sz s -> cvars sz s' -> smaller s' s -> reads s s' (fst c) (snd c) -> stable s c -> stable s' c.
Proof.
  intros C C' Sm R [v [o [T [E D]]]]. pose proof (beval_same sz s s' (fst c) (snd c) C C' R) as B. unfold tells in E. rewrite E in B. exists v. destruct (beval s' (fst c) (brange (snd c))) as [o'| |] eqn:E'; cbn in B; destruct o as [k|]; try contradiction; destruct o' as [k'|]; try contradiction.
  - exists (Some k'). split; [exact T|]. split; [exact E'|]. intros n N. apply B, D. now apply Sm.
  - exists None. auto.
Qed.
(** one tell *)
Lemma tell_step B q s v k : inv B q s -> (v < nv)%nat -> fine sz (store s v) k ->
  exists ok s' e, tell sz junk a s v k = Ret (ok, s') /\ queue (q ++ e) s' /\ (dn q s -> dn (q ++ e) s') /\ frame s s' /\ (length (q ++ e) <= Psi B q s)%nat /\
  (ok = false -> forall n, dom (store s v) n -> ~ in_tell k n) /\
  (ok = true -> inv B (q ++ e) s' /\ (Psi B (q ++ e) s' <= Psi B q s)%nat /\ (forall u, u <> v -> store s' u = store s u) /\ (forall n, dom (store s' v) n <-> dom (store s v) n /\ in_tell k n) /\
    exists m, events (store s v) (store s' v) m /\ (forall u i, 0 <= i -> Z.testbit (qmask (vars s' u)) i = Z.testbit (qmask (vars s u)) i || (Nat.eqb u v && Z.testbit m i && Z.testbit (cmask (vars s u)) i))).
Proof.
  intros I Lv F. pose proof I as [Iq Ic Icv Ism Ibq Imb Imp Idp Iop Idt Ida Iok]. destruct (tellx_ok sz small junk a J A (store s v) k (Icv v) F) as [t [Et [T1 T2]]].
  unfold tell. change (fd (vars s v)) with (store s v). rewrite Et. cbn [bind]. set (d := if negb _ && _ then _ else _). set (s1 := set_fd s v (var t) d).
  assert (V1 : forall u, qmask (vars s1 u) = qmask (vars s u) /\ qnext (vars s1 u) = qnext (vars s u) /\ cmask (vars s1 u) = cmask (vars s u) /\ (forall c, chs (vars s1 u) c = chs (vars s u) c)) by (intros u; unfold s1; bs).
  assert (F1 : frame s s1) by (split; auto; intros; apply V1).
  assert (Q1 : queue q s1). { destruct Iq as [N M L T]. split; auto; [intros u; rewrite (proj1 (V1 u)); apply M|]. apply (linked_ext (fun v => qnext (vars s v))); auto. intros u _. symmetry. apply V1. }
  destruct (ap_ok q s1 v (propag t) Q1) as [e [E1 [E2 [E3 [E4 [E5 [E6 E7]]]]]]]; [rewrite (proj1 (proj2 (proj2 (V1 v)))); apply Ic|].
  set (s' := All_Propagations s1 v (propag t)) in *. assert (Fr : frame s s') by exact (frame_trans _ _ _ F1 E2).
  assert (St : forall u, store s' u = if Nat.eqb u v then var t else store s u) by (intros u; unfold store; rewrite (proj1 (E4 u)); unfold s1; bs).
  assert (Ov : forall u, u <> v -> store s' u = store s u) by (intros u U; rewrite St; destruct (Nat.eqb_spec u v); [contradiction|reflexivity]).
  assert (Sv : store s' v = var t) by (rewrite St, Nat.eqb_refl; reflexivity).
  assert (Bits : forall u i, 0 <= i -> Z.testbit (qmask (vars s' u)) i = Z.testbit (qmask (vars s u)) i || (Nat.eqb u v && Z.testbit (propag t) i && Z.testbit (cmask (vars s u)) i)) by (intros u i Hi; rewrite E6 by exact Hi; destruct (V1 u) as [-> [_ [-> _]]]; reflexivity).
  assert (Nb : (1 <= Z.to_nat (nb_elem (store s v)))%nat) by (pose proof (nb_pos sz _ (Icv v)); lia). pose proof (mu_ge nv (store s) v Lv) as Ge.
  exists (success t), s', e. split; [reflexivity|]. split; [exact E1|]. split; [exact E3|]. split; [exact Fr|]. split; [|split; [exact T2|]].
  { unfold Psi. rewrite app_length. destruct E7 as [->|[-> _]]; cbn [length]; lia. }
  intros Su. destruct (T1 Su) as [C' [Ev D]]. rewrite <- Sv in C', Ev, D.
  assert (Cv : cvars sz (store s')) by (intros u; destruct (Nat.eq_dec u v) as [->|U]; [exact C'|rewrite (Ov u U); apply Icv]).
  assert (Sub : forall n, dom (store s' v) n -> dom (store s v) n) by (intros n Hn; now apply D in Hn).
  split; [|split; [|split; [exact Ov|split; [exact D|exists (propag t); split; [exact Ev|exact Bits]]]]].
  - split; auto.
    + destruct Ic as [G1 G2 G3]. destruct Fr as [R1 R2 R3 R4]. rewrite R1. split; [intros u; rewrite R3; apply G1|intros u c; rewrite R3, R4; apply G2|intros u c id; rewrite R4; apply G3].
    + intros u n Hn. apply Ism. destruct (Nat.eq_dec u v) as [->|U]; [auto|rewrite <- (Ov u U); exact Hn].
    + intros b Eb. destruct (Ibq b Eb) as [r ->]. cbn [app]. eauto.
    + intros u i Hi H. rewrite Bits in H by exact Hi. rewrite (f_cm _ _ Fr). apply orb_true_iff in H. destruct H as [H|H]; [now apply Imb|]. apply andb_true_iff in H. destruct H as [_ H]. auto.
    + intros u. apply E5. rewrite (proj1 (V1 u)). apply Imp.
    + intros id c N i ch u Hi Hu. rewrite (f_cfs _ _ Fr) in N. rewrite (f_ch _ _ Fr). destruct (Idp id c N i ch u Hi Hu) as [G|G]; [auto|right].
      destruct (Nat.eq_dec u v) as [->|U]; [apply (ground_mono (store s) (store s')); auto|rewrite (Ov u U); exact G].
    + intros id c N. rewrite (f_cfs _ _ Fr) in N. now apply Iop in N.
    + intros u G. rewrite (proj2 (E4 u)), (f_DATE _ _ Fr). specialize (Idt u G). unfold s1. bs. unfold d. destruct (_ && _); auto.
    + intros u G. rewrite (proj2 (E4 u)). assert (Gu : is_ground (store s u) = false). { destruct (is_ground (store s u)) eqn:Q; [|reflexivity]. destruct (Nat.eq_dec u v) as [->|U]; [rewrite (proj1 (ground_mono (store s) (store s') v Icv Cv Sub Q)) in G; discriminate|rewrite (Ov u U), Q in G; discriminate]. }
      specialize (Ida u Gu). unfold s1. destruct (Nat.eq_dec u v) as [->|U]; [|bs]. unfold set_fd. cbn. rewrite Nat.eqb_refl. cbn. unfold d. rewrite Sv in G. rewrite G, andb_false_r. exact Ida.
    + intros id c N. rewrite (f_cfs _ _ Fr) in N. now apply Iok in N.
  - pose proof (mu_upd nv (store s) (store s') v Lv Ov) as Mu. assert (NbL : nb_elem (store s' v) <= nb_elem (store s v)) by (apply (nb_le sz); auto).
    pose proof (nb_pos sz _ (Cv v)) as Np.
    assert (Strict : forall i, 0 <= i -> Z.testbit (propag t) i = true -> Z.testbit (cmask (vars s v)) i = true -> nb_elem (store s' v) < nb_elem (store s v)).
    { intros i Hi H1 H2. apply (event_removes sz _ _ (propag t)); auto. assert (i < 5). { destruct (Z_lt_dec i 5) as [L|L]; [exact L|]. rewrite bit_high in H2; [discriminate|apply Ic|lia]. } exists (Z.to_nat i). split; [lia|]. rewrite Z2Nat.id by lia. exact H1. }
    assert (Fl : flag B s' = flag B s \/ (nb_elem (store s' v) < nb_elem (store s v) /\ (B = Some v) /\ flag B s' = 1%nat /\ flag B s = 0%nat)).
    { unfold flag. destruct B as [b|]; [|auto]. destruct (Nat.eq_dec b v) as [->|Nb'].
      - destruct (Z.eqb_spec (Z.land (qmask (vars s v)) 255) 0) as [Z0|Z0], (Z.eqb_spec (Z.land (qmask (vars s' v)) 255) 0) as [Z1|Z1]; auto.
        + right. split; [|auto]. destruct (Z.eq_dec (Z.land (propag t) (cmask (vars s v))) 0) as [Zp|Zp].
          * exfalso. apply Z1. apply Z.bits_inj_0. intros i. destruct (Z_lt_dec i 0) as [Ni|Ni]; [apply Z.testbit_neg_r; lia|]. rewrite Z.land_spec, Bits by lia. assert (K1 : Z.testbit (qmask (vars s v)) i && Z.testbit 255 i = false) by (rewrite <- Z.land_spec, Z0; apply Z.bits_0). assert (K2 : Z.testbit (propag t) i && Z.testbit (cmask (vars s v)) i = false) by (rewrite <- Z.land_spec, Zp; apply Z.bits_0).
            rewrite Nat.eqb_refl, andb_true_l, K2, orb_false_r. exact K1.
          * destruct (Z.bits_inj_iff' (Z.land (propag t) (cmask (vars s v))) 0) as [_ _]. assert (Ex : exists i, 0 <= i /\ Z.testbit (propag t) i = true /\ Z.testbit (cmask (vars s v)) i = true).
            { set (w := Z.land (propag t) (cmask (vars s v))) in *. assert (Wp : 0 < w) by (assert (0 <= w) by (apply Z.land_nonneg; right; apply Ic); lia). exists (Z.log2 w). split; [apply Z.log2_nonneg|]. pose proof (Z.bit_log2 w Wp) as Hb. unfold w in Hb at 1. rewrite Z.land_spec in Hb. now apply andb_true_iff in Hb. }
            destruct Ex as [i [X1 [X2 X3]]]. exact (Strict i X1 X2 X3).
        + exfalso. apply Z0. apply Z.bits_inj_0. intros i. destruct (Z_lt_dec i 0) as [Ni|Ni]; [apply Z.testbit_neg_r; lia|]. assert (K : Z.testbit (Z.land (qmask (vars s' v)) 255) i = false) by (rewrite Z1; apply Z.bits_0). rewrite Z.land_spec, Bits in K by lia. rewrite Z.land_spec. destruct (Z.testbit (qmask (vars s v)) i), (Z.testbit 255 i); cbn in *; auto.
      - left. assert (Eq : qmask (vars s' b) = qmask (vars s b)). { apply Z.bits_inj'. intros i Hi. rewrite Bits by exact Hi. destruct (Nat.eqb_spec b v); [contradiction|]. apply orb_false_r. } now rewrite Eq. }
    assert (Ee : e = [] \/ (e = [v] /\ nb_elem (store s' v) < nb_elem (store s v) /\ B <> Some v)).
    { destruct E7 as [->|[-> Hl]]; [auto|right]. split; [reflexivity|]. split.
      - rewrite (proj1 (proj2 (proj2 (V1 v)))) in Hl. set (w := Z.land (propag t) (cmask (vars s v))) in *. assert (Wp : 0 < w) by (assert (0 <= w) by (apply Z.land_nonneg; right; apply Ic); lia). pose proof (Z.bit_log2 w Wp) as Hb. unfold w in Hb at 1. rewrite Z.land_spec in Hb. apply andb_true_iff in Hb. apply (Strict (Z.log2 w)); [apply Z.log2_nonneg|tauto|tauto].
      - intros Eb. destruct (Ibq v Eb) as [r ->]. destruct E1 as [N1 _ _ _]. cbn [app] in N1. inversion N1 as [|? ? N2 _]; subst. apply N2. rewrite in_app_iff. right. now left. }
    unfold Psi. rewrite app_length. destruct Ee as [->|[-> [Ls Nbv]]]; cbn [length]; destruct Fl as [->|[Ls' [Ebv [-> ->]]]]; try lia. congruence.
Qed.
Definition registered (s : st) (id : nat) (f : list aval) (b : block) : Prop :=
  forall i ch v, In (i, ch) (block_deps (length f) b) -> nth_error f i = Some (AV v) -> In id (chs (vars s v) ch) \/ is_ground (store s v) = true.
Lemma after_tell B q s s' v m : inv B q s -> frame s s' -> cvars sz (store s') -> (forall u, u <> v -> store s' u = store s u) -> (forall n, dom (store s' v) n -> dom (store s v) n) -> events (store s v) (store s' v) m ->
  (forall u i, 0 <= i -> Z.testbit (qmask (vars s' u)) i = Z.testbit (qmask (vars s u)) i || (Nat.eqb u v && Z.testbit m i && Z.testbit (cmask (vars s u)) i)) ->
  forall f b id, registered s id f b -> reads (store s) (store s') f b \/ pending s' id.
Proof.
  intros I Fr Cv Ov Sub Ev Bits f b id Rg. destruct (untouched (store s) (store s') v m f b (i_cv _ _ _ I) Cv Ov Sub Ev) as [R|[i [ch [D1 [D2 D3]]]]]; [auto|right].
  destruct (block_deps_lt _ _ _ _ D1) as [_ Lc]. destruct (Rg i ch v D1 D2) as [G|G].
  - exists v, ch. split; [exact Lc|]. split; [rewrite (f_ch _ _ Fr); exact G|]. rewrite Bits by lia. rewrite Nat.eqb_refl, D3. cbn [andb]. assert (X : Z.testbit (cmask (vars s v)) (Z.of_nat ch) = true) by (apply (c_ch _ _ (i_c _ _ _ I)); [exact Lc|]; intros E; rewrite E in G; destruct G). rewrite X. apply orb_true_r.
  - exfalso. pose proof (ground_mono (store s) (store s') v (i_cv _ _ _ I) Cv Sub G) as [_ Same]. pose proof (event_removes sz _ _ m (i_cv _ _ _ I v) (Cv v) Ev Sub (ex_intro _ ch (conj Lc D3))) as L. pose proof (nb_le sz _ _ (Cv v) (i_cv _ _ _ I v) Same). lia.
Qed.
Lemma pending_mono s s' id : frame s s' -> (forall u i, 0 <= i -> Z.testbit (qmask (vars s u)) i = true -> Z.testbit (qmask (vars s' u)) i = true) -> pending s id -> pending s' id.
Proof. intros Fr M [v [ch [L [I T]]]]. exists v, ch. split; [exact L|]. split; [rewrite (f_ch _ _ Fr); exact I|]. apply M; [lia|exact T]. Qed.
(** the outcome of a step *)
Definition lost (s : st) : Prop := forall g, within (store s) g -> P g -> False.
Record went (B : option nat) (q : list nat) (s : st) (q' : list nat) (s' : st) : Prop := {
  w_i : inv B q' s';
  w_p : (Psi B q' s' <= Psi B q s)%nat;
  w_s : smaller (store s') (store s);
  w_k : forall g, within (store s) g -> P g -> within (store s') g }.
Lemma run_block_step B q s f b : inv B q s -> okc (f, b) ->
  exists ok s' e, run_block sz junk a s f b = Ret (ok, s') /\ queue (q ++ e) s' /\ (dn q s -> dn (q ++ e) s') /\ frame s s' /\ (length (q ++ e) <= Psi B q s)%nat /\ (ok = false -> lost s) /\
  (ok = true -> went B q s (q ++ e) s' /\ (forall pend, pinv pend s -> pinv pend s') /\ (forall id, registered s id f b -> stable (store s') (f, b) \/ pending s' id)).
Proof.
  intros I [Sf [Sd [Fr [v [Tg Lv]]]]]. destruct Sf as [v' [Tg' Sf]]. assert (v' = v) by congruence. subst v'. clear Tg'.
  unfold run_block. unfold target in Tg. cbn [fst snd] in Tg. destruct (nth_error f (btarget b)) as [[v'|]|] eqn:Nt; try discriminate. injection Tg as ->.
  assert (Tg : target (f, b) = Some v) by (unfold target; cbn [fst snd]; now rewrite Nt).
  destruct (Sf (store s) (i_cv _ _ _ I) (i_sm _ _ _ I)) as [o [Eo Fo]]. unfold tells in Eo. cbn [fst snd] in Eo. rewrite Eo. cbn [bind]. destruct o as [k|].
  - destruct (tell_step B q s v k I Lv Fo) as [ok [s' [e [H1 [H2 [H3 [H4 [H5 [H6 H7]]]]]]]]]. exists ok, s', e. split; [exact H1|]. split; [exact H2|]. split; [exact H3|]. split; [exact H4|]. split; [exact H5|].
    assert (Keep : forall g, within (store s) g -> P g -> in_tell k (g v)) by (intros g W Pg; apply (Sd (store s) g v k (i_cv _ _ _ I) W Pg Tg); exact Eo).
    split.
    { intros O g W Pg. apply (H6 O (g v) (W v)). now apply Keep. }
    intros O. destruct (H7 O) as [I' [Ps [Ov [D [m [Ev Bits]]]]]]. assert (Sub : forall n, dom (store s' v) n -> dom (store s v) n) by (intros n Hn; now apply D in Hn).
    pose proof (i_cv _ _ _ I') as Cv'. assert (Sm : smaller (store s') (store s)). { intros u n Hn. destruct (Nat.eq_dec u v) as [->|U]; [auto|rewrite <- (Ov u U); exact Hn]. }
    pose proof (after_tell B q s s' v m I H4 Cv' Ov Sub Ev Bits) as At.
    split; [|split].
    + split; auto. intros g W Pg u. destruct (Nat.eq_dec u v) as [->|U]; [apply D; split; [apply W|now apply Keep]|rewrite (Ov u U); apply W].
    + intros pend Pi id c N. rewrite (f_cfs _ _ H4) in N. destruct (Pi id c N) as [G|[G|[G|G]]]; auto.
      * destruct (At (af c) (cfct c) id) as [R|R]; [intros i ch u; apply (i_dp _ _ _ I id c N)| |auto]. left. apply (stable_reads (store s)); auto. apply (i_cv _ _ _ I).
      * right; right; left. apply (pending_mono s); auto. intros u i Hi Ht. rewrite Bits by exact Hi. now rewrite Ht.
    + intros id Rg. destruct (At f b id Rg) as [R|R]; [left|auto]. pose proof (beval_same sz (store s) (store s') f b (i_cv _ _ _ I) Cv' R) as Bs. rewrite Eo in Bs. exists v. destruct (beval (store s') f (brange b)) as [[k'|]| |] eqn:E'; cbn in Bs; try contradiction. exists (Some k'). split; [exact Tg|]. split; [exact E'|]. intros n Hn. apply Bs. now apply D in Hn.
  - exists true, s, []. rewrite app_nil_r. split; [reflexivity|]. split; [apply I|]. split; [auto|]. split; [apply frame_refl|]. split; [unfold Psi; lia|]. split; [discriminate|]. intros _. split; [|split; [auto|]].
    + split; auto. intros u n Hn; exact Hn.
    + intros id _. left. exists v, None. auto.
Qed.
(** ** The loop *)
Lemma run_cframe_step B q s id pend : inv B q s -> (id < length (cfs s))%nat -> pinv (id :: pend) s ->
  exists ok s' e, run_cframe sz junk a s id = Ret (ok, s') /\ queue (q ++ e) s' /\ (dn q s -> dn (q ++ e) s') /\ frame s s' /\ (length (q ++ e) <= Psi B q s)%nat /\ (ok = false -> lost s) /\
  (ok = true -> went B q s (q ++ e) s' /\ pinv pend s').
Proof.
  intros I L Pi. unfold run_cframe. destruct (nth_error (cfs s) id) as [c|] eqn:N; [|apply nth_error_None in N; lia]. destruct (skipped s c) eqn:Sk.
  - exists true, s, []. rewrite app_nil_r. split; [reflexivity|]. split; [apply I|]. split; [auto|]. split; [apply frame_refl|]. split; [unfold Psi; lia|]. split; [discriminate|]. intros _. split; [split; auto; intros u n Hn; exact Hn|].
    intros id' c' N'. destruct (Pi id' c' N') as [G|[G|[G|[<-|G]]]]; auto. right; left. assert (c' = c) by congruence. subst c'.
    unfold skipped in Sk. destruct (i_op _ _ _ I id c N) as [E|E]; rewrite E in Sk; [discriminate|]. destruct (i_ok _ _ _ I id c N) as [_ [_ [_ [v [Tg _]]]]]. rewrite Tg in Sk. exists v. split; [exact Tg|]. destruct (is_ground (s0 v)) eqn:G; [reflexivity|]. destruct (i_dt _ _ _ I v G) as [D|D]; rewrite D, Z.eqb_refl in Sk; [discriminate|]. now rewrite andb_false_r in Sk.
  - destruct (run_block_step B q s (af c) (cfct c) I (i_ok _ _ _ I id c N)) as [ok [s' [e [H1 [H2 [H3 [H4 [H5 [H6 H7]]]]]]]]]. exists ok, s', e. split; [exact H1|]. split; [exact H2|]. split; [exact H3|]. split; [exact H4|]. split; [exact H5|]. split; [exact H6|].
    intros O. destruct (H7 O) as [W [K1 K2]]. split; [exact W|]. intros id' c' N'. destruct (K1 _ Pi id' c' N') as [G|[G|[G|[<-|G]]]]; auto.
    rewrite (f_cfs _ _ H4) in N'. assert (c' = c) by congruence. subst c'. destruct (K2 id) as [G|G]; [intros i ch u; apply (i_dp _ _ _ I id c N)|..]; auto.
Qed.
Lemma went_trans B q s q1 s1 q2 s2 : went B q s q1 s1 -> went B q1 s1 q2 s2 -> went B q s q2 s2.
Proof.
  intros [W1 W2 W3 W4] [V1 V2 V3 V4]. split; auto; [lia|]. intros v n Hn. now apply W3, V3.
Qed.
Lemma lost_went B q s q1 s1 : went B q s q1 s1 -> lost s1 -> lost s.
Proof. intros W L g G Pg. apply (L g); auto. now apply (w_k _ _ _ _ _ W). Qed.
Definition step (B : option nat) (q : list nat) (s : st) (pend : list nat) (o : outcome (bool * st)) : Prop :=
  exists ok s' e, o = Ret (ok, s') /\ queue (q ++ e) s' /\ (dn q s -> dn (q ++ e) s') /\ frame s s' /\ (length (q ++ e) <= Psi B q s)%nat /\ (ok = false -> lost s) /\ (ok = true -> went B q s (q ++ e) s' /\ pinv pend s').
Lemma step_nil B q s pend : inv B q s -> pinv pend s -> step B q s pend (Ret (true, s)).
Proof.
  intros I Pi. exists true, s, []. rewrite app_nil_r. split; [reflexivity|]. split; [apply I|]. split; [auto|]. split; [apply frame_refl|]. split; [unfold Psi; lia|]. split; [discriminate|]. intros _. split; [split; auto; intros u n Hn; exact Hn|exact Pi].
Qed.
Lemma step_bind B q s pend pend' o k : step B q s pend o -> (forall q' s', frame s s' -> inv B q' s' -> pinv pend s' -> step B q' s' pend' (k s')) ->
  step B q s pend' (do p <- o; if fst p then k (snd p) else Ret p).
Proof.
  intros [ok [s1 [e [-> [H2 [H3 [H4 [H5 [H6 H7]]]]]]]]] K. cbn [bind fst snd]. destruct ok.
  - destruct (H7 eq_refl) as [W Pi]. destruct (K _ s1 H4 (w_i _ _ _ _ _ W) Pi) as [ok [s2 [e' [-> [G2 [G3 [G4 [G5 [G6 G7]]]]]]]]]. exists ok, s2, (e ++ e'). rewrite app_assoc. split; [reflexivity|]. split; [exact G2|]. split; [auto|]. split; [exact (frame_trans _ _ _ H4 G4)|]. split; [pose proof (w_p _ _ _ _ _ W); lia|]. split; [intros O; exact (lost_went _ _ _ _ _ W (G6 O))|].
    intros O. destruct (G7 O) as [W' Pi']. split; [exact (went_trans _ _ _ _ _ _ _ W W')|exact Pi'].
  - exists false, s1, e. split; [reflexivity|]. split; [exact H2|]. split; [auto|]. split; [exact H4|]. split; [exact H5|]. split; [exact H6|discriminate].
Qed.
Lemma run_list_step B : forall l q s pend, inv B q s -> (forall id, In id l -> (id < length (cfs s))%nat) -> pinv (l ++ pend) s -> step B q s pend (run_list sz junk a s l).
Proof.
  induction l as [|id l IH]; intros q s pend I L Pi; cbn [run_list app] in *; [now apply step_nil|].
  apply (step_bind B q s (l ++ pend) pend _ (fun s => run_list sz junk a s l)); [apply run_cframe_step; [exact I|apply L; now left|exact Pi]|]. intros q' s' Fr I' Pi'. apply IH; auto. intros i Hi. rewrite (f_cfs _ _ Fr). apply L. now right.
Qed.
Definition due (s : st) (v : nat) (propag : Z) (l : list nat) : list nat := flat_map (fun i => if Z.testbit propag (Z.of_nat i) then chs (vars s v) i else []) l.
Lemma due_frame s s' v p l : frame s s' -> due s' v p l = due s v p l.
Proof. intros Fr. unfold due. induction l as [|i l IH]; cbn; [reflexivity|]. now rewrite IH, (f_ch _ _ Fr). Qed.
Lemma run_chains_step B v p : forall l q s, inv B q s -> (forall i, In i l -> Z.testbit p (Z.of_nat i) = true -> chs (vars s v) i <> []) -> pinv (due s v p l) s -> step B q s [] (run_chains sz junk a s v p l).
Proof.
  induction l as [|i l IH]; intros q s I Ne Pi; cbn [run_chains due flat_map] in *; [now apply step_nil|]. fold (due s v p l) in Pi. destruct (Z.testbit p (Z.of_nat i)) eqn:T; [|apply IH; [exact I|intros j Hj; apply Ne; now right|exact Pi]].
  specialize (Ne i) as Nei. destruct (chs (vars s v) i) as [|id recs] eqn:Ec; [exfalso; apply Nei; [now left|exact T|reflexivity]|]. clear Nei.
  apply (step_bind B q s (due s v p l) [] _ (fun s => run_chains sz junk a s v p l)).
  - apply run_list_step; auto. intros j Hj. apply (c_id _ _ (i_c _ _ _ I) v i). now rewrite Ec.
  - intros q' s' Fr I' Pi'. apply IH; auto.
    + intros j Hj Tj. rewrite (f_ch _ _ Fr). apply Ne; [now right|exact Tj].
    + now rewrite (due_frame _ _ _ _ _ Fr).
Qed.
Lemma inv_requeue B q s B' q' s' : inv B q s -> frame s s' -> (forall u, fd (vars s' u) = fd (vars s u) /\ date (vars s' u) = date (vars s u)) -> queue q' s' ->
  (forall b, B' = Some b -> exists r, q' = b :: r) ->
  (forall v i, 0 <= i -> Z.testbit (qmask (vars s' v)) i = true -> Z.testbit (cmask (vars s v)) i = true \/ (B' = Some v /\ i = 8)) -> (forall v, 0 <= qmask (vars s' v)) -> inv B' q' s'.
Proof.
  intros [Iq Ic Icv Ism Ibq Imb Imp Idp Iop Idt Ida Iok] Fr Sd Q Bq Mb Mp. assert (St : forall u, store s' u = store s u) by (intros u; apply Sd). split; auto.
  - destruct Ic as [G1 G2 G3]. destruct Fr as [R1 R2 R3 R4]. rewrite R1. split; [intros u; rewrite R3; apply G1|intros u c; rewrite R3, R4; apply G2|intros u c id; rewrite R4; apply G3].
  - intros u. rewrite St. apply Icv.
  - intros u n. rewrite St. apply Ism.
  - intros u i. rewrite (f_cm _ _ Fr). apply Mb.
  - intros id c N i ch u Hi Hu. rewrite (f_cfs _ _ Fr) in N. rewrite (f_ch _ _ Fr), St. exact (Idp id c N i ch u Hi Hu).
  - intros id c N. rewrite (f_cfs _ _ Fr) in N. now apply Iop in N.
  - intros u. rewrite (proj2 (Sd u)), (f_DATE _ _ Fr). apply Idt.
  - intros u. rewrite (proj2 (Sd u)), St. apply Ida.
  - intros id c N. rewrite (f_cfs _ _ Fr) in N. now apply Iok in N.
Qed.
Lemma store_same s s' : (forall u, fd (vars s' u) = fd (vars s u)) -> forall c, stable (store s) c -> stable (store s') c.
Proof.
  intros E [f b] [v [o [T [Eo D]]]]. exists v, o. split; [exact T|]. assert (Es : forall u, store s u = store s' u) by (intros u; symmetry; apply E).
  split; [|destruct o; [|exact I]; intros n; rewrite <- Es; apply D]. rewrite <- Eo. unfold tells. cbn [fst snd]. clear - Es.
  assert (Ev : forall t, eval (store s') f t = eval (store s) f t). { induction t; cbn; try reflexivity; unfold the_var; try (destruct (nth_error f i) as [[]|]; cbn; rewrite ?Es; reflexivity); rewrite ?IHt1, ?IHt2, ?IHt3; reflexivity. }
  assert (Vg : forall t, vals_ground (store s') f t = vals_ground (store s) f t). { induction t; cbn; try reflexivity; unfold the_var; try (destruct (nth_error f i) as [[]|]; cbn; rewrite ?Es; reflexivity); rewrite ?IHt1, ?IHt2, ?IHt3; reflexivity. }
  destruct (brange b); cbn; unfold one, the_var; rewrite ?Ev, ?Vg; try reflexivity. destruct (nth_error f i) as [[]|]; cbn; rewrite ?Es; reflexivity.
Qed.
Lemma queue_tail b q s s' : queue (b :: q) s -> (forall u, qmask (vars s' u) = if Nat.eqb u b then 0 else qmask (vars s u)) -> (forall u, qnext (vars s' u) = qnext (vars s u)) ->
  tp s' = match q with [] => None | _ => tp s end -> queue q s'.
Proof.
  intros [N M L T] Hm Hn Ht. inversion N as [|? ? N1 N2]; subst. split; auto.
  - intros v. rewrite Hm. specialize (M v). cbn in M. destruct (Nat.eqb_spec v b) as [->|D]; [tauto|]. rewrite <- M. intuition congruence.
  - apply (linked_ext (fun v => qnext (vars s v))); [intros; symmetry; apply Hn|apply L].
  - rewrite Ht. destruct q; [reflexivity|]. exact T.
Qed.
Lemma queue_mask b q s m : queue (b :: q) s -> m <> 0 -> queue (b :: q) (set_qmask s b m).
Proof.
  intros [N M L T] Hm. split; auto.
  - intros v. rewrite M. cbn. destruct (Nat.eqb_spec v b) as [->|D]; cbn; [|tauto]. split; [intros _; exact Hm|]. intros _. apply M. now left.
  - apply (linked_ext (fun v => qnext (vars s v))); auto. intros u _. bs.
Qed.
Lemma set_qmask_frame s b m : frame s (set_qmask s b m).
Proof. split; auto; intros u; intros; bs. Qed.
Lemma bit256 i : 0 <= i -> Z.testbit 256 i = true -> i = 8.
Proof. intros H. change 256 with (2 ^ 8). rewrite Z.pow2_bits_eqb by lia. intros E. apply Z.eqb_eq in E. lia. Qed.
Lemma bit255 i : 0 <= i < 8 -> Z.testbit 255 i = true.
Proof. intros H. change 255 with (Z.ones 8). apply Z.ones_spec_low. lia. Qed.
Lemma mu_same s s' : (forall u, fd (vars s' u) = fd (vars s u)) -> mu nv (store s') = mu nv (store s).
Proof. intros E. unfold mu. f_equal. apply map_ext. intros u. unfold store. now rewrite E. Qed.
Lemma loop_ok : forall fuel q s bp, inv None (bp :: q) s -> pinv [] s -> (mu nv (store s) + length (bp :: q) < fuel)%nat ->
  exists ok s', propag_loop sz junk a fuel s bp = Ret (ok, s') /\ (forall v, qmask (vars s' v) = 0) /\ tp s' = None /\ frame s s' /\ (ok = false -> lost s) /\ (ok = true -> went None (bp :: q) s [] s' /\ pinv [] s').
Proof.
  induction fuel as [|fuel IH]; intros q s bp I Pi Fu; [lia|]. cbn [propag_loop]. change MASK_TO_KEEP_IN_QUEUE with 256. change (256 - 1) with 255. set (p := qmask (vars s bp)). set (s1 := set_qmask s bp 256).
  pose proof (i_c _ _ _ I) as [Cm Cc Ci].
  assert (Fr1 : frame s s1) by apply set_qmask_frame. assert (Fd1 : forall u, fd (vars s1 u) = fd (vars s u) /\ date (vars s1 u) = date (vars s u)) by (intros u; unfold s1; bs).
  assert (Pbit : forall i, 0 <= i -> Z.testbit p i = true -> Z.testbit (cmask (vars s bp)) i = true /\ i < 5).
  { intros i Hi Ht. destruct (i_mb _ _ _ I bp i Hi Ht) as [G|[G _]]; [|discriminate]. split; [exact G|]. destruct (Z_lt_dec i 5); [auto|]. rewrite bit_high in G; [discriminate|apply Cm|lia]. }
  assert (Sh : Z.shiftr p 5 = 0). { apply Z.bits_inj_0. intros i. destruct (Z_lt_dec i 0) as [Ni|Ni]; [apply Z.testbit_neg_r; lia|]. rewrite Z.shiftr_spec by lia. destruct (Z.testbit p (i + 5)) eqn:T; [|reflexivity]. apply Pbit in T; lia. }
  rewrite Sh. cbn [Z.eqb negb].
  assert (Q1 : queue (bp :: q) s1) by (apply queue_mask; [apply I|discriminate]).
  assert (I1 : inv (Some bp) (bp :: q) s1).
  { apply (inv_requeue None (bp :: q) s); auto.
    - intros b Eb. injection Eb as <-. eauto.
    - intros v i Hi. unfold s1. cbn. destruct (Nat.eqb_spec v bp) as [->|D]; cbn; [intros T; apply bit256 in T; auto|]. intros T. destruct (i_mb _ _ _ I v i Hi T) as [G|[G _]]; [auto|discriminate].
    - intros v. unfold s1. bs; [lia|]. apply (i_mp _ _ _ I). }
  assert (P1 : pinv (due s1 bp p all_chains) s1).
  { intros id c N. destruct (Pi id c N) as [G|[G|[[v [ch [G1 [G2 G3]]]]|[]]]]; auto; [left; apply (store_same s); auto; intros u; apply Fd1|].
    destruct (Nat.eq_dec v bp) as [->|D].
    - right; right; right. unfold due. apply in_flat_map. exists ch. split; [unfold all_chains, CHAIN_NB_MIN, CHAIN_NB_MAX, CHAIN_NB_MIN_MAX, CHAIN_NB_DOM, CHAIN_NB_VAL; cbn; lia|]. fold p in G3. rewrite G3, (f_ch _ _ Fr1). exact G2.
    - right; right; left. exists v, ch. split; [exact G1|]. unfold s1. cbn. destruct (Nat.eqb_spec v bp); [contradiction|]. auto. }
  destruct (run_chains_step (Some bp) bp p all_chains (bp :: q) s1 I1) as [ok [s2 [e [R1 [R2 [R3 [R4 [R5 [R6 R7]]]]]]]]]; [|exact P1|].
  { intros i Hi Ht. rewrite (f_ch _ _ Fr1). apply Cc; [unfold all_chains, CHAIN_NB_MIN, CHAIN_NB_MAX, CHAIN_NB_MIN_MAX, CHAIN_NB_DOM, CHAIN_NB_VAL in Hi; cbn in Hi; lia|]. apply Pbit; [lia|exact Ht]. }
  rewrite R1. cbn [bind fst snd].
  assert (Ps1 : Psi (Some bp) (bp :: q) s1 = (mu nv (store s) + length (bp :: q))%nat). { unfold Psi, flag. rewrite (mu_same s s1) by (intros u; apply Fd1). unfold s1. cbn. rewrite Nat.eqb_refl. cbn. lia. }
  assert (Fr2 : frame s s2) by exact (frame_trans _ _ _ Fr1 R4).
  assert (Wi : forall g, within (store s) g -> within (store s1) g) by (intros g W u; unfold store; rewrite (proj1 (Fd1 u)); apply W).
  destruct ok.
  2: { destruct (Clear_Queue_ok ((bp :: q) ++ e) (set_dnext s2 bp) fuel) as [s3 [C1 [C2 [C3 C4]]]]; [destruct R2; split; auto|reflexivity|lia|]. rewrite C1. cbn [bind]. exists false, s3. split; [reflexivity|]. split; [exact C2|]. split; [exact C3|].
       split; [apply (frame_trans _ _ _ Fr2); destruct C4; split; auto|]. split; [|discriminate]. intros _ g W Pg. exact (R6 eq_refl g (Wi g W) Pg). }
  destruct (R7 eq_refl) as [[W1 W2 W3 W4] P2]. clear R6 R7. set (s3 := set_qmask s2 bp (Z.land (qmask (vars s2 bp)) 255)).
  assert (E3 : qmask (vars s3 bp) = Z.land (qmask (vars s2 bp)) 255) by (unfold s3; bs). assert (O3 : forall u, u <> bp -> qmask (vars s3 u) = qmask (vars s2 u)) by (intros u U; unfold s3; bs).
  assert (Fr3 : frame s2 s3) by apply set_qmask_frame. assert (Fd3 : forall u, fd (vars s3 u) = fd (vars s2 u) /\ date (vars s3 u) = date (vars s2 u)) by (intros u; unfold s3; bs).
  assert (P3 : pinv [] s3).
  { intros id c N. destruct (P2 id c N) as [G|[G|[[v [ch [G1 [G2 G3]]]]|[]]]]; auto; [left; apply (store_same s2); auto; intros u; apply Fd3|]. right; right; left. exists v, ch. split; [exact G1|]. split; [rewrite (f_ch _ _ Fr3); exact G2|].
    destruct (Nat.eq_dec v bp) as [->|D]; [|rewrite (O3 v D); exact G3]. rewrite E3, Z.land_spec, G3, bit255 by lia. reflexivity. }
  assert (Mb3 : forall v i, 0 <= i -> Z.testbit (qmask (vars s3 v)) i = true -> Z.testbit (cmask (vars s2 v)) i = true \/ (None = Some v /\ i = 8)).
  { intros v i Hi T. destruct (Nat.eq_dec v bp) as [->|D].
    - rewrite E3, Z.land_spec in T. apply andb_true_iff in T. destruct T as [T1 T2]. destruct (i_mb _ _ _ W1 bp i Hi T1) as [G|[_ ->]]; [auto|]. discriminate T2.
    - rewrite (O3 v D) in T. destruct (i_mb _ _ _ W1 v i Hi T) as [G|[G _]]; [auto|]. congruence. }
  assert (Mp3 : forall v, 0 <= qmask (vars s3 v)). { intros v. destruct (Nat.eq_dec v bp) as [->|D]; [rewrite E3; apply Z.land_nonneg; right; lia|rewrite (O3 v D); apply (i_mp _ _ _ W1)]. }
  assert (Mu3 : mu nv (store s3) = mu nv (store s2)) by (apply mu_same; intros u; apply Fd3).
  assert (Sm3 : smaller (store s3) (store s)). { intros u n. unfold store at 1. rewrite (proj1 (Fd3 u)). intros Hn. apply W3 in Hn. unfold store in *. rewrite (proj1 (Fd1 u)) in Hn. exact Hn. }
  assert (Kp3 : forall g, within (store s) g -> P g -> within (store s3) g). { intros g W Pg u. unfold store. rewrite (proj1 (Fd3 u)). apply W4; auto. }
  assert (Fr : frame s s3) by exact (frame_trans _ _ _ Fr2 Fr3).
  rewrite Ps1 in W2. unfold Psi, flag in W2. fold s3. destruct (Z.eqb_spec (Z.land (qmask (vars s2 bp)) 255) 0) as [Z0|Z0]; rewrite <- E3 in Z0.
  - rewrite Z0. cbn [Z.eqb]. pose proof (q_tp _ _ R2) as T2. cbn [app] in *. change (tp s3) with (tp s2). rewrite T2.
    assert (Hm : forall u, qmask (vars s3 u) = if Nat.eqb u bp then 0 else qmask (vars s2 u)) by (intros u; destruct (Nat.eqb_spec u bp) as [->|D]; [exact Z0|now apply O3]).
    assert (Hn : forall u, qnext (vars s3 u) = qnext (vars s2 u)) by (intros u; unfold s3; bs).
    destruct (q ++ e) as [|w r] eqn:Eq.
    + cbn [last]. rewrite Nat.eqb_refl. assert (I3 : inv None [] (set_tp s3 None)).
      { apply (inv_requeue (Some bp) [bp] s2); auto; [destruct Fr3; split; auto| |discriminate]. apply (queue_tail bp [] s2); auto. }
      eexists true, _. split; [reflexivity|]. split; [intros v; cbn [set_tp vars]; rewrite Hm; destruct (Nat.eqb_spec v bp) as [->|D]; [reflexivity|]; pose proof (q_mk _ _ R2 v) as M; destruct (Z.eq_dec (qmask (vars s2 v)) 0) as [E|E]; [exact E|]; apply M in E; destruct E as [E|[]]; congruence|]. split; [reflexivity|]. split; [destruct Fr; split; auto|]. split; [discriminate|]. intros _. split.
      * split; auto. unfold Psi, flag. change (store (set_tp s3 None)) with (store s3). rewrite Mu3. cbn [length] in *. lia.
      * exact P3.
    + assert (Q3 : queue (w :: r) s3) by (apply (queue_tail bp (w :: r) s2); auto). assert (I3 : inv None (w :: r) s3) by (apply (inv_requeue (Some bp) (bp :: w :: r) s2); auto; discriminate).
      destruct (Nat.eqb_spec bp (last (bp :: w :: r) 0%nat)) as [Eb|Eb].
      { exfalso. pose proof (q_nd _ _ R2) as N. inversion N as [|? ? N1 N2]; subst. apply N1. rewrite Eb. change (last (bp :: w :: r) 0%nat) with (last (w :: r) 0%nat). apply last_in. discriminate. }
      assert (Ew : qnext (vars s3 bp) = w) by (rewrite Hn; apply (q_lk _ _ R2)). rewrite Ew. destruct (IH r s3 w I3 P3) as [ok [s4 [L1 [L2 [L3 [L4 [L5 L6]]]]]]]; [rewrite Mu3; cbn [length] in *; lia|].
      exists ok, s4. split; [exact L1|]. split; [exact L2|]. split; [exact L3|]. split; [exact (frame_trans _ _ _ Fr L4)|]. split; [intros O g W Pg; exact (L5 O g (Kp3 g W Pg) Pg)|]. intros O. destruct (L6 O) as [[V1 V2 V3 V4] P4]. split; [|exact P4]. split; auto; [|intros u n Hn'; now apply Sm3, V3].
      unfold Psi in *. cbn [flag length] in *. lia.
  - destruct (Z.eqb_spec (qmask (vars s3 bp)) 0) as [Zz|_]; [contradiction|]. cbn [app] in *.
    assert (I3 : inv None (bp :: q ++ e) s3). { apply (inv_requeue (Some bp) (bp :: q ++ e) s2); auto; [|discriminate]. apply queue_mask; [exact R2|]. rewrite <- E3. exact Z0. }
    destruct (IH (q ++ e) s3 bp I3 P3) as [ok [s4 [L1 [L2 [L3 [L4 [L5 L6]]]]]]]; [rewrite Mu3; cbn [length] in *; lia|].
    exists ok, s4. split; [exact L1|]. split; [exact L2|]. split; [exact L3|]. split; [exact (frame_trans _ _ _ Fr L4)|]. split; [intros O g W Pg; exact (L5 O g (Kp3 g W Pg) Pg)|]. intros O. destruct (L6 O) as [[V1 V2 V3 V4] P4]. split; [|exact P4]. split; auto; [|intros u n Hn'; now apply Sm3, V3].
    unfold Psi in *. cbn [flag length] in *. lia.
Qed.
Lemma After_ok fuel q s : inv None q s -> dn q s -> pinv [] s -> (mu nv (store s) + length q < fuel)%nat ->
  exists ok s', After_Add_Cstr sz junk a fuel s true = Ret (ok, s') /\ (forall v, qmask (vars s' v) = 0) /\ tp s' = None /\ frame s s' /\ (ok = false -> lost s) /\ (ok = true -> went None q s [] s' /\ pinv [] s').
Proof.
  intros I D Pi Fu. unfold After_Add_Cstr. cbn [negb]. rewrite (q_tp _ _ (i_q _ _ _ I)). destruct q as [|b q].
  - exists true, s. split; [reflexivity|]. split; [intros v; pose proof (q_mk _ _ (i_q _ _ _ I) v) as M; destruct (Z.eq_dec (qmask (vars s v)) 0) as [E|E]; [exact E|apply M in E; destruct E]|]. split; [apply (q_tp _ _ (i_q _ _ _ I))|]. split; [apply frame_refl|]. split; [discriminate|]. intros _. split; [split; auto; intros u n Hn; exact Hn|exact Pi].
  - rewrite D. now apply loop_ok.
Qed.

(** ** Posting *)
Lemma cmask_or m c : 0 <= m < 32 -> (c < 5)%nat -> 0 <= Z.lor m (Z.shiftl 1 (Z.of_nat c)) < 32.
Proof.
  intros M C. split; [apply Z.lor_nonneg; split; [lia|apply Z.shiftl_nonneg; lia]|]. change 32 with (2 ^ 5). destruct (Z.eq_dec (Z.lor m (Z.shiftl 1 (Z.of_nat c))) 0) as [->|N]; [reflexivity|]. apply Z.log2_lt_pow2; [assert (0 <= Z.lor m (Z.shiftl 1 (Z.of_nat c))) by (apply Z.lor_nonneg; split; [lia|apply Z.shiftl_nonneg; lia]); lia|].
  rewrite Z.log2_lor by (try apply Z.shiftl_nonneg; lia). apply Z.max_lub_lt.
  - destruct (Z.eq_dec m 0) as [->|Nm]; [reflexivity|]. apply Z.log2_lt_pow2; [lia|]. change (2 ^ 5) with 32. lia.
  - rewrite Z.shiftl_1_l, Z.log2_pow2; lia.
Qed.
Record grew (s s' : st) : Prop := {
  g_cfs : cfs s' = cfs s; g_tp : tp s' = tp s; g_dn : dnext s' = dnext s; g_DATE : DATE s' = DATE s;
  g_v : forall u, fd (vars s' u) = fd (vars s u) /\ date (vars s' u) = date (vars s u) /\ qmask (vars s' u) = qmask (vars s u) /\ qnext (vars s' u) = qnext (vars s u);
  g_cm : forall u i, Z.testbit (cmask (vars s u)) i = true -> Z.testbit (cmask (vars s' u)) i = true;
  g_ch : forall u c id, In id (chs (vars s u) c) -> In id (chs (vars s' u) c) }.
Lemma grew_trans s s' s'' : grew s s' -> grew s' s'' -> grew s s''.
Proof.
  intros [A1 A2 A3 A4 A5 A6 A7] [B1 B2 B3 B4 B5 B6 B7]. split; try congruence; auto. intros u. destruct (A5 u) as [X1 [X2 [X3 X4]]], (B5 u) as [Y1 [Y2 [Y3 Y4]]]. repeat split; congruence.
Qed.
Lemma add_deps_ok f id n : (id < n)%nat -> forall l s, chains s n -> (forall i c, In (i, c) l -> (c < 5)%nat /\ exists v, nth_error f i = Some (AV v)) ->
  exists s', add_deps s f id l = Ret s' /\ chains s' n /\ grew s s' /\ forall i c v, In (i, c) l -> nth_error f i = Some (AV v) -> In id (chs (vars s' v) c) \/ is_ground (store s v) = true.
Proof.
  intros Lt. induction l as [|[i c] l IH]; intros s C L; cbn [add_deps].
  - exists s. split; [reflexivity|]. split; [exact C|]. split; [split; auto|]. intros i c v [].
  - destruct (L i c (or_introl eq_refl)) as [Lc [v Nv]]. unfold Add_Dependency. rewrite Nv. destruct (is_ground (fd (vars s v))) eqn:Gv; cbn [bind].
    + destruct (IH s C) as [s' [H1 [H2 [H3 H4]]]]; [intros; apply L; now right|]. exists s'. split; [exact H1|]. split; [exact H2|]. split; [exact H3|]. intros j c' u [E|E] N; [injection E as <- <-; rewrite Nv in N; injection N as <-; auto|eauto].
    + set (s1 := setv s v _). assert (C1 : chains s1 n).
      { destruct C as [C1 C2 C3]. split.
        - intros u. unfold s1. bs. now apply cmask_or.
        - intros u c' Lc'. unfold s1. cbn. destruct (Nat.eqb_spec u v) as [->|D]; cbn; [|now apply C2]. rewrite Z.lor_spec, orb_true_iff, (C2 v c' Lc'). rewrite Z.shiftl_1_l, Z.pow2_bits_eqb by lia. destruct (Nat.eqb_spec c' c) as [->|D].
          + rewrite Z.eqb_refl. split; [discriminate|auto].
          + destruct (Z.eqb_spec (Z.of_nat c) (Z.of_nat c')); [lia|]. intuition discriminate.
        - intros u c' j. unfold s1. cbn. destruct (Nat.eqb_spec u v) as [->|D]; cbn; [|apply C3]. destruct (Nat.eqb_spec c' c); [|apply C3]. intros [<-|G]; [exact Lt|exact (C3 _ _ _ G)]. }
      assert (G1 : grew s s1).
      { unfold s1. split; try reflexivity.
        - intros u. bs.
        - intros u k Hk. bs. rewrite Z.lor_spec, Hk. reflexivity.
        - intros u c' k Hk. cbn. destruct (Nat.eqb_spec u v) as [->|D]; cbn; [|exact Hk]. destruct (Nat.eqb_spec c' c); [now right|exact Hk]. }
      destruct (IH s1 C1) as [s' [H1 [H2 [H3 H4]]]]; [intros; apply L; now right|]. exists s'. split; [exact H1|]. split; [exact H2|]. split; [exact (grew_trans _ _ _ G1 H3)|].
      intros j c' u [E|E] N.
      * injection E as <- <-. rewrite Nv in N. injection N as <-. left. apply (g_ch _ _ H3). unfold s1. cbn. rewrite Nat.eqb_refl. cbn. rewrite Nat.eqb_refl. now left.
      * destruct (H4 j c' u E N) as [G|G]; [auto|]. right. unfold store in *. rewrite <- (proj1 (g_v _ _ G1 u)). exact G.
Qed.
(** the new constraint frame and its dependencies *)
Lemma register_ok q s f b c : inv None q s -> okc (f, b) -> af c = f -> cfct c = b -> (optim c = None \/ optim c = target (f, b)) -> pinv [] s ->
  exists s1, add_deps (St (vars s) (cfs s ++ [c]) (tp s) (dnext s) (DATE s)) f (length (cfs s)) (block_deps (length f) b) = Ret s1 /\ inv None q s1 /\ (dn q s -> dn q s1) /\ pinv [length (cfs s)] s1 /\ registered s1 (length (cfs s)) f b /\
   cfs s1 = cfs s ++ [c] /\ DATE s1 = DATE s /\ (forall u, store s1 u = store s u) /\ Psi None q s1 = Psi None q s.
Proof.
  intros I Ok Ef Eb Op Pi. subst f b. set (f := af c) in *. set (b := cfct c) in *. set (n := length (cfs s)). set (s' := St (vars s) (cfs s ++ [c]) (tp s) (dnext s) (DATE s)).
  assert (Len : length (cfs s') = S n) by (unfold s'; cbn; rewrite app_length; cbn; lia).
  assert (C' : chains s' (S n)). { destruct (i_c _ _ _ I) as [C1 C2 C3]. split; auto. intros v c' id Hi. specialize (C3 v c' id Hi). fold n in C3. lia. }
  destruct (add_deps_ok f n (S n) (Nat.lt_succ_diag_r n) (block_deps (length f) b) s' C') as [s1 [H1 [H2 [H3 H4]]]].
  { intros i c' Hi. split; [apply (block_deps_lt _ _ _ _ Hi)|]. destruct Ok as [_ [_ [Fr _]]]. exact (Fr i c' Hi). }
  exists s1. split; [exact H1|]. pose proof H3 as [G1 G2 G3 G4 G5 G6 G7]. cbn [s' cfs tp dnext DATE vars] in *.
  assert (St : forall u, store s1 u = store s u) by (intros u; apply G5).
  assert (Nth : forall id c', nth_error (cfs s1) id = Some c' -> nth_error (cfs s) id = Some c' \/ (id = n /\ c' = c)).
  { intros id c' N. rewrite G1 in N. destruct (Nat.lt_ge_cases id n) as [L|L]; [rewrite nth_error_app1 in N by exact L; auto|]. rewrite nth_error_app2 in N by exact L. fold n in N. destruct (id - n)%nat as [|k] eqn:Ek; cbn in N; [injection N as <-; right; split; [lia|reflexivity]|destruct k; discriminate]. }
  assert (Rg : registered s1 n f b). { intros i ch v Hi Hv. rewrite St. apply (H4 i ch v Hi Hv). }
  split; [|split; [|split; [|split; [exact Rg|split; [exact G1|split; [exact G4|split; [exact St|]]]]]]].
  - split.
    + destruct (i_q _ _ _ I) as [Q1 Q2 Q3 Q4]. split; auto; [intros v; rewrite (proj1 (proj2 (proj2 (G5 v)))); apply Q2| |congruence]. apply (linked_ext (fun v => qnext (vars s v))); auto. intros u _. symmetry. apply G5.
    + rewrite G1. rewrite Len. exact H2.
    + intros u. rewrite St. apply (i_cv _ _ _ I).
    + intros u k. rewrite St. apply (i_sm _ _ _ I).
    + discriminate.
    + intros v i Hi. rewrite (proj1 (proj2 (proj2 (G5 v)))). intros T. destruct (i_mb _ _ _ I v i Hi T) as [X|X]; auto.
    + intros v. rewrite (proj1 (proj2 (proj2 (G5 v)))). apply (i_mp _ _ _ I).
    + intros id c' N i ch v Hi Hv. destruct (Nth id c' N) as [N'|[-> ->]]; [|exact (Rg i ch v Hi Hv)]. rewrite St. destruct (i_dp _ _ _ I id c' N' i ch v Hi Hv) as [X|X]; auto.
    + intros id c' N. destruct (Nth id c' N) as [N'|[-> ->]]; [exact (i_op _ _ _ I id c' N')|exact Op].
    + intros v. rewrite (proj1 (proj2 (G5 v))), G4. apply (i_dt _ _ _ I).
    + intros v. rewrite (proj1 (proj2 (G5 v))), St. apply (i_da _ _ _ I).
    + intros id c' N. destruct (Nth id c' N) as [N'|[-> ->]]; [exact (i_ok _ _ _ I id c' N')|exact Ok].
  - unfold dn. destruct q; auto. congruence.
  - intros id c' N. destruct (Nth id c' N) as [N'|[-> ->]]; [|right; right; right; now left]. destruct (Pi id c' N') as [G|[G|[[v [ch [X1 [X2 X3]]]]|[]]]]; auto; [left; apply (store_same s); auto; intros u; apply G5|].
    right; right; left. exists v, ch. split; [exact X1|]. split; [now apply G7|]. rewrite (proj1 (proj2 (proj2 (G5 v)))). exact X3.
  - unfold Psi, flag. rewrite (mu_same s s1) by (intros u; apply G5). reflexivity.
Qed.
(** what is known about a block once it is installed *)
Definition ran (s : st) (c : cstr) : Prop :=
  (block_deps (length (fst c)) (snd c) = [] /\ stable (store s) c \/ exists id cf, nth_error (cfs s) id = Some cf /\ cons_of cf = c) /\
  (was_bound c -> exists s1, cvars sz s1 /\ smaller s1 s0 /\ smaller (store s) s1 /\ stable s1 c).
Definition ext (s s' : st) : Prop := (exists l, cfs s' = cfs s ++ l) /\ DATE s' = DATE s.
Lemma ran_ext s s' c : cvars sz (store s) -> cvars sz (store s') -> ext s s' -> smaller (store s') (store s) -> ran s c -> ran s' c.
Proof.
  intros C C' [[l E] _] Sm [R1 R2]. split.
  - destruct R1 as [[D S]|[id [cf [N Ec]]]]; [left; split; [exact D|]|right; exists id, cf; split; [|exact Ec]; rewrite E; rewrite nth_error_app1; [exact N|apply nth_error_Some; congruence]]. apply (stable_reads (store s)); auto. intros i ch v Hi. rewrite D in Hi. destruct Hi.
  - intros W. destruct (R2 W) as [s1 [S1 [S2 [S3 S4]]]]. exists s1. split; [exact S1|]. split; [exact S2|]. split; [|exact S4]. intros u n Hn. now apply S3, Sm.
Qed.
Definition istep (q : list nat) (s : st) (cs : list cstr) (o : outcome (bool * st)) : Prop :=
  exists ok s' e, o = Ret (ok, s') /\ queue (q ++ e) s' /\ (dn q s -> dn (q ++ e) s') /\ ext s s' /\ (length (q ++ e) <= Psi None q s)%nat /\ (ok = false -> lost s) /\
   (ok = true -> went None q s (q ++ e) s' /\ pinv [] s' /\ (forall c, In c cs -> ran s' c) /\
      forall id c, nth_error (cfs s') id = Some c -> nth_error (cfs s) id = Some c \/ In (cons_of c) cs).
Lemma ground_stable B q s f b v s' : inv B q s -> okc (f, b) -> run_block sz junk a s f b = Ret (true, s') -> target (f, b) = Some v -> is_ground (store s v) = true -> stable (store s) (f, b).
Proof.
  intros I [[v' [Tv Sf]] _] R T G. assert (v' = v) by congruence. subst v'. destruct (Sf (store s) (i_cv _ _ _ I) (i_sm _ _ _ I)) as [o [Eo Fo]]. exists v, o. split; [exact T|]. split; [exact Eo|]. destruct o as [k|]; [|exact Logic.I].
  unfold run_block in R. unfold target in T. cbn [fst snd] in T. destruct (nth_error f (btarget b)) as [[v'|]|]; try discriminate. injection T as ->. unfold tells in Eo. cbn [fst snd] in Eo. rewrite Eo in R. cbn [bind] in R.
  unfold tell in R. change (fd (vars s v)) with (store s v) in R. destruct (tellx_ok sz small junk a J A (store s v) k (i_cv _ _ _ I v) Fo) as [t [Et [T1 _]]]. rewrite Et in R. cbn [bind] in R. injection R as Es _. destruct (T1 Es) as [Cv [_ D]].
  intros n Hn. unfold is_ground in G. destruct (tagv (store s v)) as [m|] eqn:Tv'; [|discriminate]. pose proof (bound sz _ m (proj1 (i_cv _ _ _ I v)) Tv') as Bd. destruct (cvar_ends sz (var t) Cv) as [En _]. pose proof En as En'. apply D in En'. destruct En' as [Ex Ek]. apply Bd in Ex, Hn. subst n. rewrite <- Ex. exact Ek.
Qed.
Hypothesis C0 : cvars sz s0.
Lemma ran_run q s f b s' e : inv None q s -> okc (f, b) -> run_block sz junk a s f b = Ret (true, s') -> went None q s (q ++ e) s' ->
  was_bound (f, b) -> exists s1, cvars sz s1 /\ smaller s1 s0 /\ smaller (store s') s1 /\ stable s1 (f, b).
Proof.
  intros I Ok R W [v [Tv G]]. exists (store s). split; [apply (i_cv _ _ _ I)|]. split; [apply (i_sm _ _ _ I)|]. split; [apply (w_s _ _ _ _ _ W)|]. apply (ground_stable None q s f b v s'); auto. apply (ground_mono s0 (store s)); auto; [apply (i_cv _ _ _ I)|]. intros n. apply (i_sm _ _ _ I).
Qed.
Lemma install_step q s f b : inv None q s -> pinv [] s -> okc (f, b) -> istep q s [(f, b)] (install sz junk a s f b).
Proof.
  intros I Pi Ok. unfold install. destruct Ok as [Ok1 [Ok2 [Ok3 [v [Tv Lv]]]]]. assert (Ok : okc (f, b)) by (split; [|split; [|split]]; eauto). clear Ok1 Ok2 Ok3.
  pose proof Tv as Tn. unfold target in Tn. cbn [fst snd] in Tn. destruct (nth_error f (btarget b)) as [[v'|]|] eqn:Nt; try discriminate. injection Tn as ->.
  destruct (block_deps (length f) b) as [|d deps] eqn:Ed.
  - destruct (run_block_step None q s f b I Ok) as [ok [s' [e [H1 [H2 [H3 [H4 [H5 [H6 H7]]]]]]]]]. exists ok, s', e. split; [exact H1|]. split; [exact H2|]. split; [exact H3|]. split; [split; [exists []; rewrite app_nil_r; apply H4|apply H4]|]. split; [exact H5|]. split; [exact H6|].
    intros ->. destruct (H7 eq_refl) as [W [K1 K2]]. split; [exact W|]. split; [auto|]. split.
    + intros c [<-|[]]. split; [left; split; [exact Ed|]|exact (ran_run q s f b s' e I Ok H1 W)]. destruct (K2 (length (cfs s))) as [G|[u [ch [_ [G _]]]]]; [intros i ch u Hi; rewrite Ed in Hi; destruct Hi|exact G|]. pose proof (c_id _ _ (i_c _ _ _ (w_i _ _ _ _ _ W)) u ch _ G) as L. rewrite (f_cfs _ _ H4) in L. lia.
    + intros id c. rewrite (f_cfs _ _ H4). auto.
  - set (c := CFrame f (if balways b then None else Some v) b). rewrite <- Ed. destruct (register_ok q s f b c I Ok eq_refl eq_refl) as [s1 [R1 [R2 [R3 [R4 [R5 [R6 [R7 [R8 R9]]]]]]]]]; [unfold c; cbn; destruct (balways b); auto|exact Pi|].
    cbv zeta. rewrite R1. cbn [bind]. destruct (run_block_step None q s1 f b R2 Ok) as [ok [s' [e [H1 [H2 [H3 [H4 [H5 [H6 H7]]]]]]]]]. exists ok, s', e. split; [exact H1|]. split; [exact H2|]. split; [auto|]. split; [split; [exists [c]; rewrite (f_cfs _ _ H4); exact R6|rewrite (f_DATE _ _ H4); exact R7]|]. split; [rewrite <- R9; exact H5|].
    assert (Wi : forall g, within (store s) g -> within (store s1) g) by (intros g W u; rewrite R8; apply W).
    split; [intros O g W Pg; exact (H6 O g (Wi g W) Pg)|]. intros ->. destruct (H7 eq_refl) as [[W1 W2 W3 W4] [K1 K2]].
    assert (W : went None q s (q ++ e) s'). { split; auto; [lia|]. intros u n Hn. apply W3 in Hn. rewrite <- R8. exact Hn. }
    split; [exact W|]. split; [|split].
    + intros id c' N. destruct (K1 _ R4 id c' N) as [G|[G|[G|[<-|[]]]]]; auto. rewrite (f_cfs _ _ H4), R6, nth_error_app2, Nat.sub_diag in N by lia. injection N as <-. destruct (K2 _ R5) as [G|G]; auto.
    + intros c' [<-|[]]. split.
      * right. exists (length (cfs s)), c. split; [rewrite (f_cfs _ _ H4), R6, nth_error_app2, Nat.sub_diag by lia; reflexivity|reflexivity].
      * apply (ran_run q s1 f b s' e); auto. split; auto.
    + intros id c' N. rewrite (f_cfs _ _ H4), R6 in N. destruct (Nat.lt_ge_cases id (length (cfs s))) as [L|L]; [rewrite nth_error_app1 in N by exact L; auto|]. rewrite nth_error_app2 in N by exact L. destruct (id - length (cfs s))%nat as [|k]; cbn in N; [injection N as <-; right; left; reflexivity|destruct k; discriminate].
Qed.
Lemma install_all_step f : forall l q s, inv None q s -> pinv [] s -> (forall b, In b l -> okc (f, b)) -> istep q s (map (fun b => (f, b)) l) (install_all sz junk a s f l).
Proof.
  induction l as [|b l IH]; intros q s I Pi Ok; cbn [install_all map].
  - exists true, s, []. rewrite app_nil_r. split; [reflexivity|]. split; [apply I|]. split; [auto|]. split; [split; [exists []; now rewrite app_nil_r|reflexivity]|]. split; [unfold Psi; lia|]. split; [discriminate|]. intros _. split; [split; auto; intros u n Hn; exact Hn|]. split; [exact Pi|]. split; [intros c []|auto].
  - destruct (install_step q s f b I Pi (Ok b (or_introl eq_refl))) as [ok [s1 [e [H1 [H2 [H3 [H4 [H5 [H6 H7]]]]]]]]]. rewrite H1. cbn [bind fst snd]. destruct ok.
    + destruct (H7 eq_refl) as [W [P1 [R1 N1]]]. destruct (IH (q ++ e) s1 (w_i _ _ _ _ _ W) P1) as [ok [s2 [e' [G1 [G2 [G3 [G4 [G5 [G6 G7]]]]]]]]]; [intros b' Hb; apply Ok; now right|].
      exists ok, s2, (e ++ e'). rewrite app_assoc. split; [exact G1|]. split; [exact G2|]. split; [auto|]. split; [destruct H4 as [[l1 E1] D1], G4 as [[l2 E2] D2]; split; [exists (l1 ++ l2); rewrite E2, E1, app_assoc; reflexivity|congruence]|]. split; [pose proof (w_p _ _ _ _ _ W); lia|]. split; [intros O; exact (lost_went _ _ _ _ _ W (G6 O))|].
      intros O. destruct (G7 O) as [W' [P2 [R2 N2]]]. split; [exact (went_trans _ _ _ _ _ _ _ W W')|]. split; [exact P2|]. split.
      * intros c [<-|Hc]; [|now apply R2]. apply (ran_ext s1); auto; [apply (i_cv _ _ _ (w_i _ _ _ _ _ W))|apply (i_cv _ _ _ (w_i _ _ _ _ _ W'))|apply (w_s _ _ _ _ _ W')|]. apply R1. now left.
      * intros id c N. destruct (N2 id c N) as [X|X]; [|right; now right]. destruct (N1 id c X) as [Y|[Y|[]]]; [auto|]. right; now left.
    + exists false, s1, e. split; [reflexivity|]. split; [exact H2|]. split; [exact H3|]. split; [exact H4|]. split; [exact H5|]. split; [exact H6|discriminate].
Qed.
End E.

Section T.
Variable sz : nat.
Hypothesis small : 64 * Z.of_nat sz <= 2 ^ 28.
Variable junk : list Z.
Variable a : around.
Hypothesis J : vok sz junk.
Hypothesis A : around_ok a.
Lemma before_inv G s P nv : ready sz G s -> (forall c, posted G c -> good sz nv (store s) P c) -> inv sz (store s) P nv None [] (Before_Add_Cstr s) /\ pinv (store s) [] (Before_Add_Cstr s).
Proof.
  intros R Gd. pose proof R as [Rq Rcm Rch Rid Rcv Rdp Rop Rda Rcf RG Rst]. unfold Before_Add_Cstr. split.
  - split; cbn [vars cfs tp dnext DATE]; auto.
    + split; cbn; auto; [constructor|]. intros v. rewrite Rq. split; [intros []|congruence].
    + split; auto.
    + intros v n Hn. exact Hn.
    + discriminate.
    + intros v i Hi. rewrite Rq, Z.bits_0. discriminate.
    + intros v. rewrite Rq. lia.
    + intros id c N i ch v. exact (Rdp id c i ch v N).
    + intros id c N. apply Gd. exact (Rcf id c N).
  - intros id c N. left. apply Rst. exact (Rcf id c N).
Qed.
Lemma frame_ext s s' : frame s s' -> ext s s'.
Proof. intros [A1 A2 _ _]. split; [exists []; rewrite app_nil_r; exact A1|exact A2]. Qed.
Lemma finish G G' s P nv q s2 fuel ok : ready sz G s -> (forall c, posted G' c -> good sz nv (store s) P c) -> (forall c, posted G' c -> posted G c \/ (ok = true -> ran sz (store s) s2 c)) -> (forall c, posted G c -> posted G' c) ->
  queue q s2 -> dn q s2 -> (length q < fuel)%nat -> ext (Before_Add_Cstr s) s2 -> (ok = false -> lost P (Before_Add_Cstr s)) ->
  (ok = true -> went sz (store s) P nv None [] (Before_Add_Cstr s) q s2 /\ pinv (store s) [] s2 /\ forall id c, nth_error (cfs s2) id = Some c -> posted G' (cons_of c)) ->
  (mu nv (store s) < fuel)%nat -> posts sz s P G' (After_Add_Cstr sz junk a fuel s2 ok).
Proof.
  intros R Gd Pg Inc Q D Lq Ex Lo Wt Fu. destruct ok.
  2: { unfold After_Add_Cstr. cbn [negb]. destruct (Clear_Queue_ok q s2 fuel Q D) as [s3 [C1 [C2 _]]]; [lia|]. rewrite C1. cbn [bind]. exists false, s3. split; [reflexivity|]. split; [exact C2|]. split; [|discriminate]. intros _. exact (Lo eq_refl). }
  destruct (Wt eq_refl) as [W [Pi Nn]]. clear Wt Lo. destruct (After_ok sz small junk a J A (store s) P nv fuel q s2 (w_i _ _ _ _ _ _ _ _ _ W) D Pi) as [ok [s3 [H1 [H2 [H3 [H4 [H5 H6]]]]]]].
  { pose proof (w_p _ _ _ _ _ _ _ _ _ W) as Wp. unfold Psi in Wp. cbn [flag length] in Wp. change (store (Before_Add_Cstr s)) with (store s) in Wp. lia. }
  exists ok, s3. split; [exact H1|]. split; [exact H2|]. split; [intros O g Wg Pg'; exact (H5 O g (w_k _ _ _ _ _ _ _ _ _ W g Wg Pg') Pg')|]. intros O. destruct (H6 O) as [W' Pi3].
  pose proof (w_i _ _ _ _ _ _ _ _ _ W') as I3. pose proof (i_cv _ _ _ _ _ _ _ I3) as C3. pose proof (i_sm _ _ _ _ _ _ _ I3) as Sm.
  pose proof (i_cv _ _ _ _ _ _ _ (w_i _ _ _ _ _ _ _ _ _ W)) as C2.
  assert (Ex3 : ext (Before_Add_Cstr s) s3). { destruct Ex as [[l E] D1]. split; [exists l; rewrite (f_cfs _ _ H4); exact E|rewrite (f_DATE _ _ H4); exact D1]. }
  assert (Np : forall id, ~ pending s3 id) by (intros id [v [ch [_ [_ T]]]]; rewrite H2, Z.bits_0 in T; discriminate).
  assert (Cf : forall id cf, nth_error (cfs s3) id = Some cf -> stable (store s3) (cons_of cf) \/ was_bound (store s) (cons_of cf)).
  { intros id cf N. destruct (Pi3 id cf N) as [X|[X|[X|[]]]]; auto. exfalso. exact (Np id X). }
  assert (RG : forall c, posted G' c -> (block_deps (length (fst c)) (snd c) = [] /\ stable (store s3) c) \/ exists id cf, nth_error (cfs s3) id = Some cf /\ cons_of cf = c).
  { intros c Hc. destruct (Pg c Hc) as [Ho|Hr].
    - destruct (r_G _ _ _ R c Ho) as [Hd|[id [cf [N E]]]].
      + left. split; [exact Hd|]. apply (stable_reads sz (store s)); auto; [apply (r_cv _ _ _ R)| |exact (r_st _ _ _ R c Ho)]. intros i ch v Hi. rewrite Hd in Hi. destruct Hi.
      + right. exists id, cf. split; [|exact E]. destruct Ex3 as [[l El] _]. rewrite El. cbn. rewrite nth_error_app1; [exact N|apply nth_error_Some; congruence].
    - specialize (Hr eq_refl). apply (ran_ext sz (store s) s2 s3) in Hr; auto; [destruct Hr as [Hr _]; exact Hr|apply frame_ext, H4|apply (w_s _ _ _ _ _ _ _ _ _ W')]. }
  assert (Al : forall c, posted G' c -> stable (store s3) c \/ skipped_ok sz (store s) (store s3) c).
  { intros c Hc. destruct (RG c Hc) as [[_ X]|[id [cf [N E]]]]; [auto|]. destruct (Cf id cf N) as [X|X]; rewrite E in X; [auto|right]. split; [exact X|]. destruct (Pg c Hc) as [Ho|Hr].
    - exists (store s). split; [apply (r_cv _ _ _ R)|]. split; [intros v n Hn; exact Hn|]. split; [exact Sm|exact (r_st _ _ _ R c Ho)].
    - specialize (Hr eq_refl). apply (ran_ext sz (store s) s2 s3) in Hr; auto; [destruct Hr as [_ Hr]; exact (Hr X)|apply frame_ext, H4|apply (w_s _ _ _ _ _ _ _ _ _ W')]. }
  split; [exact C3|]. split; [exact Sm|]. split; [intros g Wg Pg'; apply (w_k _ _ _ _ _ _ _ _ _ W'); auto; apply (w_k _ _ _ _ _ _ _ _ _ W); auto|]. split; [exact Al|].
  intros Cl. destruct (i_c _ _ _ _ _ _ _ I3) as [G1 G2 G3]. split; auto.
  - intros id c i ch v N. exact (i_dp _ _ _ _ _ _ _ I3 id c N i ch v).
  - exact (i_op _ _ _ _ _ _ _ I3).
  - exact (i_da _ _ _ _ _ _ _ I3).
  - intros id c N. apply (Nn id c). rewrite <- (f_cfs _ _ H4). exact N.
  - intros c Hc. destruct (RG c Hc) as [[X _]|X]; auto.
  - intros c Hc. pose proof Hc as [l [H7 H8]]. destruct c as [f b]. cbn [fst snd] in *. apply (Cl (f, l) H7 (store s3)); auto; [apply (r_cv _ _ _ R)|]. intros b' Hb. apply Al. exists l. auto.
Qed.
(** Posting a constraint. *)
Lemma post_ok G s P nv fuel f l : ready sz G s -> (forall c, posted ((f, l) :: G) c -> good sz nv (store s) P c) -> (mu nv (store s) < fuel)%nat -> posts sz s P ((f, l) :: G) (post sz junk a fuel s f l).
Proof.
  intros R Gd Fu. assert (Inc : forall c, posted G c -> posted ((f, l) :: G) c) by (intros c [l' [H1 H2]]; exists l'; split; [now right|exact H2]).
  destruct (before_inv G s P nv R) as [I Pi]; [intros c Hc; now apply Gd, Inc|]. unfold post.
  destruct (install_all_step sz small junk a J A (store s) P nv (r_cv _ _ _ R) f l [] (Before_Add_Cstr s) I Pi) as [ok [s2 [e [H1 [H2 [H3 [H4 [H5 [H6 H7]]]]]]]]]; [intros b Hb; apply (Gd (f, b)); exists l; split; [now left|exact Hb]|].
  rewrite H1. cbn [bind fst snd]. cbn [app] in *. apply (finish G _ s P nv e); auto.
  - intros c [l' [[E|Hl] Hb]]; [|left; exists l'; auto]. right. intros O. destruct (H7 O) as [_ [_ [Rn _]]]. apply Rn. injection E as Ef <-. apply in_map_iff. exists (snd c). split; [rewrite Ef; destruct c; reflexivity|exact Hb].
  - apply H3. exact Logic.I.
  - unfold Psi in H5. cbn [flag length] in H5. change (store (Before_Add_Cstr s)) with (store s) in H5. lia.
  - intros O. destruct (H7 O) as [W [P2 [_ Nn]]]. split; [exact W|]. split; [exact P2|]. intros id c N. destruct (Nn id c N) as [X|X]; [apply Inc, (r_cf _ _ _ R id c X)|]. apply in_map_iff in X. destruct X as [b [X1 X2]]. exists l. rewrite <- X1. split; [now left|exact X2].
Qed.
(** Restricting a variable. *)
Lemma tell_post_ok G s P nv fuel v k : ready sz G s -> (forall c, posted G c -> good sz nv (store s) P c) -> (v < nv)%nat -> fine sz (store s v) k -> (forall g, within (store s) g -> P g -> in_tell k (g v)) -> (mu nv (store s) < fuel)%nat ->
  posts sz s P G (tell_post sz junk a fuel s v k).
Proof.
  intros R Gd Lv Fi Kp Fu. destruct (before_inv G s P nv R Gd) as [I Pi]. unfold tell_post.
  destruct (tell_step sz small junk a J A (store s) P nv None [] (Before_Add_Cstr s) v k I Lv Fi) as [ok [s2 [e [H1 [H2 [H3 [H4 [H5 [H6 H7]]]]]]]]]. rewrite H1. cbn [bind fst snd]. cbn [app] in *.
  apply (finish G _ s P nv e); auto.
  - apply H3. exact Logic.I.
  - unfold Psi in H5. cbn [flag length] in H5. change (store (Before_Add_Cstr s)) with (store s) in H5. lia.
  - now apply frame_ext.
  - intros O g W Pg. exact (H6 O (g v) (W v) (Kp g W Pg)).
  - intros O. destruct (H7 O) as [I2 [Ps [Ov [Dm [m [Ev Bits]]]]]]. change (store (Before_Add_Cstr s)) with (store s) in *.
    assert (Sub : forall n, dom (store s2 v) n -> dom (store s v) n) by (intros n Hn; now apply Dm in Hn). pose proof (i_cv _ _ _ _ _ _ _ I2) as C2. split; [|split].
    + split; auto; [exact (i_sm _ _ _ _ _ _ _ I2)|]. intros g W Pg u. change (store (Before_Add_Cstr s)) with (store s) in W. destruct (Nat.eq_dec u v) as [->|U]; [apply Dm; split; [apply W|now apply Kp]|rewrite (Ov u U); apply W].
    + intros id c N. rewrite (f_cfs _ _ H4) in N. pose proof (Pi id c N) as [X|[X|[X|[]]]]; auto.
      * destruct (after_tell sz (store s) P nv None [] (Before_Add_Cstr s) s2 v m I H4 C2 Ov Sub Ev Bits (af c) (cfct c) id) as [Rd|Rd]; [intros i ch u; apply (i_dp _ _ _ _ _ _ _ I id c N)| |auto]. left. apply (stable_reads sz (store s)); auto; [apply (r_cv _ _ _ R)|exact (i_sm _ _ _ _ _ _ _ I2)].
      * right; right; left. apply (pending_mono nv (Before_Add_Cstr s)); auto. intros u i Hi Ht. rewrite Bits by exact Hi. now rewrite Ht.
    + intros id c N. rewrite (f_cfs _ _ H4) in N. exact (r_cf _ _ _ R id c N).
Qed.
End T.
