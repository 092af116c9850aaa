(** Proofs for C38, C39: backtracking keeps the invariant. *)
Require Import ZArith List Bool Arith Lia Permutation Sorted.
Require Import Verif.Heap_Model Verif.Gvar_Model Verif.Gvar_Spec Verif.Gvar_Tree Verif.Gvar_Free Verif.Gvar_Build Verif.Gvar_Grow Verif.Gvar_Inv Verif.Gvar_Steps.
Import ListNotations.
Open Scope nat_scope.

Definition set_tr (s : gst) (l : list nat) : gst := Gst (hp s) (un s) (info s) (nb s) l.
Lemma top_tr : forall u l, StronglySorted gt (u :: l) -> forall w, In w (u :: l) -> w = u \/ w < u.
Proof.
  intros u l SS w [->|Hw]; [left; reflexivity|right]. apply StronglySorted_inv in SS. destruct SS as (_ & F).
  rewrite Forall_forall in F. specialize (F w Hw). lia.
Qed.
Lemma top_notin : forall u l, StronglySorted gt (u :: l) -> ~ In u l.
Proof.
  intros u l SS Hw. apply StronglySorted_inv in SS. destruct SS as (_ & F). rewrite Forall_forall in F. specialize (F u Hw). lia.
Qed.
Lemma no_uids_sav :
  (forall t, uidsT t = [] -> idsC t = idsT t) /\ (forall l, uidsL l = [] -> idsCL l = idsL l) /\
  (forall h, uidsH h = [] -> h = HNil) /\ (forall d, uidsD d = [] -> idsCD d = idsD d).
Proof.
  apply tree_ind; cbn [uidsT uidsL uidsH uidsD idsT idsL idsD idsC idsCL idsCD]; try reflexivity; try discriminate; auto.
  - intros b l IHl d IHd E. apply app_eq_nil in E. destruct E. rewrite IHl, IHd by assumption. reflexivity.
  - intros t IHt h IHh r IHr E. apply app_eq_nil in E. destruct E as (E1 & E2). apply app_eq_nil in E2. destruct E2 as (E2 & E3).
    rewrite (IHh E2), (IHt E1), (IHr E3). reflexivity.
Qed.

(** the newest record is used *)
Lemma pop_valid : forall s t R u l, INV s (t :: R) -> tr s = u :: l -> In u (uidsT t) ->
  exists s1 p L c t1 r, G_Untrail u s = Ret s1 /\ info s1 = info s /\ nb s1 = nb s /\
    getP p t = Some (L, c, HCons u t1 r) /\ INV (set_tr s1 l) (setP p t1 r t :: [] ++ R).
Proof.
  intros s t R u l IN ET Hu. pose proof (i_s _ _ IN) as SS. rewrite ET in SS.
  destruct (newest_top t 0 (nb s) u (Forall_inv (i_o _ _ IN)) Hu) as (p & L & c & t1 & r & E & UC).
  { intros v Hv. assert (Iv : In v (tr s)) by (apply (i_val _ _ IN); apply (allU_in t); [left; reflexivity|exact Hv]).
    rewrite ET in Iv. destruct (top_tr u l SS v Iv); lia. }
  destruct (INV_elt s t R p L c _ IN E) as ((lo & A) & I1 & U1 & I2 & U2).
  destruct A as [AC AT AH AO AOH AL ACN AU AB ALT]. cbn [idsH uidsH hdu] in *.
  destruct (G_Free_ok c false s L (HCons u t1 r) lo) as (s1 & EF & FR & HB & UF); auto.
  destruct FR as [[N1 N2 N3] _ _ FU]. cbn [hdu] in UF.
  assert (EU : forall w, un s1 w = un s w) by (intros w; apply FU; left; reflexivity).
  destruct AH as (Eu & Ht1 & Hr).
  unfold G_Untrail. unfold rd_undo at 1. rewrite Eu. cbn [bind u_loc u_save u_next u_prev]. rewrite EF. cbn [bind].
  unfold wr_c. rewrite (rd_ok _ _ _ (updcell_cell _ _ _ _ UF)) by apply cof_junk. cbn [bind e_u].
  destruct (wr_ok L (Elt (cof t1) (Some u)) s1 _ (updcell_cell _ _ _ _ UF)) as (h2 & -> & UC2 & HB2). cbn [bind].
  assert (UT : ~ In u (uidsT t1 ++ uidsH r)) by (specialize (U1 u); rewrite cnt_cons, one_same in U1; mem).
  assert (Hd : forall n, hdu r = Some n -> n <> u /\ In n (uidsH r)).
  { intros n Q. destruct r as [|w tw r]; [discriminate Q|]. injection Q as ->. split; [|left; reflexivity].
    intros ->. apply UT. apply in_or_app. right. left. reflexivity. }
  assert (ST : exists U', (do s2 <- match hdu r with
      | Some n => do q <- rd_undo n (set_hp s1 h2); wr_undo n (Undo (u_loc q) (u_save q) (u_next q) None) (set_hp s1 h2)
      | None => Ret (set_hp s1 h2) end; Ret s2) = Ret (set_un (set_hp s1 h2) U') /\
      hH (hp s) U' L None r /\ (forall w, ~ In w (uidsH r) -> U' w = un s w)).
  { destruct r as [|n tn q]; cbn [hdu].
    - exists (un s1). split; [reflexivity|]. split; [exact I|]. intros w _. apply EU.
    - destruct Hr as (En & Htn & Hq). unfold rd_undo, wr_undo. cbn [un set_hp]. rewrite !EU, En. cbn [bind u_loc u_save u_next].
      eexists. split; [reflexivity|]. cbn [uidsH] in *.
      assert (UN : ~ In n (uidsT tn ++ uidsH q)) by (specialize (U1 n); rewrite !cnt_cons, !cnt_app, !cnt_cons, one_same in U1; mem).
      assert (UE : forall w, w <> n -> upd (un s1) n (Some (Undo (Some L) (cof tn) (hdu q) None)) w = un s w) by (intros w Nw; rewrite upd_other by exact Nw; apply EU).
      split; [|intros w Nw; apply UE; intros ->; apply Nw; left; reflexivity]. cbn [hH]. rewrite upd_same. split; [reflexivity|]. split.
      + apply (frameT tn (hp s) (un s)); [reflexivity| |exact Htn]. intros w Hw. apply UE. intros ->. apply UN. apply in_or_app. left. exact Hw.
      + apply (proj1 (proj2 (proj2 frame)) q (hp s) (un s)); [reflexivity| |exact Hq]. intros w Hw. apply UE. intros ->. apply UN. apply in_or_app. right. exact Hw. }
  destruct ST as (U' & ES & HH & UO).
  match type of ES with (do s2 <- ?m; Ret s2) = _ => destruct m as [s2| |]; cbn [bind] in ES; try discriminate ES; injection ES as -> end.
  cbn [bind]. unfold wr_u. set (s3 := set_un (set_hp s1 h2) U').
  assert (C3 : cell (hp s3) L = Some (Elt (cof t1) (Some u))) by exact (updcell_cell _ _ _ _ UC2).
  rewrite (rd_ok _ _ _ C3) by apply cof_junk. cbn [bind e_c].
  destruct (wr_ok L (Elt (cof t1) (hdu r)) s3 _ C3) as (h4 & -> & UC4 & HB4). cbn [bind]. unfold rd_undo. cbn [un set_hp set_un s3].
  assert (EU3 : U' u = Some (Undo (Some L) (cof t1) (hdu r) None)).
  { rewrite UO, Eu; [reflexivity|]. intros Q. apply UT. apply in_or_app. right. exact Q. }
  rewrite EU3. cbn [bind]. change (hp s3) with h2 in UC4, HB4.
  eexists. exists p, L, c, t1, r. split; [reflexivity|]. split; [exact N2|]. split; [exact N1|]. split; [exact E|].
  unfold set_tr. cbn [hp un info nb set_un set_hp].
  assert (HP : forall x, ~ In x (idsC c) -> x <> fst L -> h4 x = hp s x).
  { intros x Q1 Q2. rewrite HB4, HB2 by exact Q2. apply HB; assumption. }
  assert (LI : forall x, In x (idsT t1 ++ idsH r) -> h4 x = hp s x).
  { intros x Hx. specialize (I1 x). pose proof (idsC_cnt c x). apply HP; [mem|]. intros ->. rewrite one_same in I1. mem. }
  assert (Eu' : forall w, w <> u -> upd U' u None w = U' w) by (intros w Nw; apply upd_other; exact Nw).
  assert (NN : forall w, In w (uidsT t1 ++ uidsH r) -> w <> u) by (intros w Hw ->; contradiction).
  set (s' := Gst h4 (upd U' u None) (info s1) (nb s1) l).
  assert (TR : forall w, In w (tr s) -> w <> u -> In w l) by (intros w Hw Nw; rewrite ET in Hw; destruct Hw; congruence).
  apply (INV_set s s' t R p L c (HCons u t1 r) t1 r); cbn [hp un info nb tr s' hdu idsH uidsH]; auto.
  - rewrite N1. lia.
  - apply (updcell_trans _ _ _ _ _ _ (updcell_trans _ _ _ _ _ _ UF UC2) UC4).
  - intros x _ Nx Q1 Q2. apply HP; [|exact Nx]. pose proof (idsC_cnt c x). mem.
  - intros w Q1 Q2 _. rewrite Eu' by (intros ->; apply Q2; left; reflexivity). apply UO. intros Q. apply Q2. right. apply in_or_app. right. exact Q.
  - apply (frameT t1 (hp s) (un s)); [intros x Hx; apply LI; apply in_or_app; left; exact Hx| |exact Ht1].
    intros w Hw. rewrite Eu' by (apply NN; apply in_or_app; left; exact Hw). apply UO. specialize (U1 w). rewrite cnt_cons in U1. mem.
  - apply (proj1 (proj2 (proj2 frame)) r (hp s) U'); [intros x Hx; apply LI; apply in_or_app; right; exact Hx| |exact HH].
    intros w Hw. apply Eu'. apply NN. apply in_or_app. right. exact Hw.
  - intros x. unfold allI. cbn [flat_map]. cnts. lia.
  - intros x Hx. unfold allI in Hx. cbn [flat_map] in Hx. rewrite app_nil_r in Hx. rewrite N1. apply I2. right. exact Hx.
  - intros w. unfold allU. cbn [flat_map]. rewrite cnt_cons. cnts. lia.
  - intros lo' _ Oc (O1 & O2 & O3 & O4). rewrite N1. split; [|split; [|constructor]].
    + apply (proj1 ord_hi t1 _ u); [lia|exact O3].
    + apply (proj1 (proj2 (proj2 ord_hi)) r _ u); [lia|exact O4].
  - intros w Hw _ Q2. apply TR; [exact Hw|]. intros ->. apply Q2. left. reflexivity.
  - intros w Hw. unfold allU in Hw. cbn [flat_map] in Hw. rewrite app_nil_r in Hw. apply TR; [|apply NN; exact Hw]. apply U2. right. right. exact Hw.
  - intros w Hw. left. rewrite ET. right. exact Hw.
  - intros w Hw Hl. left. unfold allU. cbn [flat_map]. rewrite app_nil_r. rewrite UC in Hw. destruct Hw as [<-|Hw]; [exfalso; exact (top_notin u l SS Hl)|exact Hw].
  - apply StronglySorted_inv in SS. apply SS.
  - pose proof (i_tlt _ _ IN) as Q. rewrite ET in Q. rewrite N1. apply (Forall_inv_tail Q).
Qed.

(** the newest record is no longer used *)
Lemma pop_invalid : forall s O u l, INV s O -> tr s = u :: l -> ~ In u (allU O) ->
  exists s1, G_Untrail u s = Ret s1 /\ info s1 = info s /\ nb s1 = nb s /\ INV (set_tr s1 l) O.
Proof.
  intros s O u l IN ET NV. pose proof (i_s _ _ IN) as SS. rewrite ET in SS.
  destruct (i_iv _ _ IN u) as [Q|(c & n & pv & Eu & A & B)]; [rewrite ET; left; reflexivity|contradiction|].
  assert (pv = None) as ->.
  { destruct pv as [w|]; [|reflexivity]. destruct (B w eq_refl) as (Iw & Lw & _). rewrite ET in Iw. destruct (top_tr u l SS w Iw); lia. }
  unfold G_Untrail. unfold rd_undo at 1. rewrite Eu. cbn [bind u_loc u_save u_next u_prev].
  assert (ST : exists U', (do s2 <- match n with
      | Some n => do q <- rd_undo n s; wr_undo n (Undo (u_loc q) (u_save q) (u_next q) None) s
      | None => Ret s end; Ret s2) = Ret (set_un s U') /\
      (forall w, n <> Some w -> U' w = un s w) /\
      (forall w, n = Some w -> exists c' n', un s w = Some (Undo None c' n' (Some u)) /\ U' w = Some (Undo None c' n' None))).
  { destruct n as [n|].
    - destruct (A n eq_refl) as (_ & _ & c' & n' & En). unfold rd_undo, wr_undo. rewrite En. cbn [bind u_loc u_save u_next].
      eexists. split; [reflexivity|]. split; [intros w Nw; apply upd_other; congruence|]. intros w Ew. injection Ew as <-.
      exists c', n'. rewrite upd_same. auto.
    - exists (un s). split; [destruct s; reflexivity|]. split; [reflexivity|discriminate]. }
  destruct ST as (U' & ES & UO & UN).
  match type of ES with (do s2 <- ?m; Ret s2) = _ => destruct m as [s2| |]; cbn [bind] in ES; try discriminate ES; injection ES as -> end.
  cbn [bind]. unfold rd_undo. cbn [un set_un].
  assert (EU' : U' u = un s u).
  { apply UO. intros ->. destruct (A u eq_refl) as (_ & Q & _). lia. }
  rewrite EU', Eu. cbn [bind]. eexists. split; [reflexivity|]. split; [reflexivity|]. split; [reflexivity|].
  unfold set_tr. cbn [hp un info nb set_un].
  assert (KU : forall w, In w (allU O) -> upd U' u None w = un s w).
  { intros w Hw. rewrite upd_other by (intros ->; contradiction). apply UO. intros Q. destruct (UN w Q) as (c' & n' & E1 & _).
    apply in_flat_map in Hw. destruct Hw as (t & Ht & Hw). pose proof (i_h _ _ IN) as HH. rewrite Forall_forall in HH.
    destruct (proj1 uids_loc t _ _ w (HH t Ht) Hw) as (L1 & c1 & n1 & p1 & E2). congruence. }
  destruct IN as [A1 A2 A3 A4 A5 A6 A7 A8 A9 A10 A11 A12].
  constructor; cbn [hp un info nb tr]; auto.
  - rewrite Forall_forall in *. intros t Ht. apply (frameT t (hp s) (un s)); [reflexivity| |apply A1; exact Ht].
    intros w Hw. apply KU. apply (allU_in t); assumption.
  - apply StronglySorted_inv in SS. apply SS.
  - rewrite ET in A7. apply (Forall_inv_tail A7).
  - intros w Hw. pose proof (A8 w Hw) as Iw. rewrite ET in Iw. destruct Iw as [<-|Iw]; [contradiction|exact Iw].
  - intros x Hx. assert (Ix : In x (tr s)) by (rewrite ET; right; exact Hx).
    assert (Lx : x < u) by (rewrite ET in Ix; destruct (top_tr u l SS x Ix); [subst; exfalso; exact (top_notin u l SS Hx)|assumption]).
    destruct (A9 x Ix) as [Q|(cx & nx & px & Ex & Bx & Dx)]; [left; exact Q|right].
    assert (INL : forall w, In w (tr s) -> w <> u -> In w l) by (intros w Hw Nw; rewrite ET in Hw; destruct Hw; congruence).
    assert (NX : forall w, nx = Some w -> In w l /\ w < x /\ exists c' n', upd U' u None w = Some (Undo None c' n' (Some x))).
    { intros w Ew. destruct (Bx w Ew) as (Iw & Lw & c' & n' & E1). split; [apply INL; [exact Iw|lia]|]. split; [exact Lw|]. exists c', n'.
      rewrite upd_other by lia. rewrite UO; [exact E1|]. intros Q. destruct (UN w Q) as (c2 & n2 & E2 & _). rewrite E1 in E2. injection E2 as _ _ E2. lia. }
    assert (DX : forall w, px = Some w -> w <> u -> In w l /\ x < w /\ exists c' p', upd U' u None w = Some (Undo None c' (Some x) p')).
    { intros w Ew Nw. destruct (Dx w Ew) as (Iw & Lw & c' & p' & E1). split; [apply INL; assumption|]. split; [exact Lw|].
      rewrite upd_other by exact Nw. destruct (option_map Nat.eqb n) eqn:On.
      - destruct n as [n|]; [|discriminate On]. destruct (Nat.eq_dec n w) as [->|Q].
        + destruct (UN w eq_refl) as (c2 & n2 & E2 & E3). rewrite E1 in E2. injection E2 as <- <- ->. eauto.
        + rewrite UO by congruence. eauto.
      - destruct n; [discriminate On|]. rewrite UO by discriminate. eauto. }
    assert (EX : n = Some x \/ n <> Some x) by (destruct n as [n|]; [destruct (Nat.eq_dec n x); [left|right]; congruence|right; discriminate]).
    destruct EX as [EX|EX].
    + destruct (UN x EX) as (c2 & n2 & E2 & E3). rewrite Ex in E2. injection E2 as <- <- ->. exists cx, nx, None. split; [rewrite upd_other by lia; exact E3|]. split; [exact NX|discriminate].
    + exists cx, nx, px. split; [rewrite upd_other by lia; rewrite UO by exact EX; exact Ex|]. split; [exact NX|].
      intros w Ew. apply DX; [exact Ew|]. intros ->. destruct (Dx u Ew) as (_ & _ & c' & p' & E1). rewrite Eu in E1. injection E1 as _ E1 _. congruence.
Qed.

(** what backtracking does to a variable; the records are in [U] *)
Inductive popr (U : list nat) : T -> T -> Prop :=
| pop_refl : forall t, popr U t t
| pop_step : forall t p L c u t1 r t', In u U -> getP p t = Some (L, c, HCons u t1 r) -> popr U (setP p t1 r t) t' -> popr U t t'.
Lemma popr_incl : forall U V t t', incl U V -> popr U t t' -> popr V t t'.
Proof. intros U V t t' I0 P. induction P; [constructor|]. eapply pop_step; eauto. Qed.

Lemma pop_ok : forall s O u l, INV s O -> tr s = u :: l ->
  exists s1 O', G_Untrail u s = Ret s1 /\ info s1 = info s /\ nb s1 = nb s /\ INV (set_tr s1 l) O' /\
    forall t, In t O -> exists t', In t' O' /\ popr [u] t t'.
Proof.
  intros s O u l IN ET. destruct (in_dec Nat.eq_dec u (allU O)) as [Q|Q].
  - apply in_flat_map in Q. destruct Q as (t & Ht & Hu). destruct (INV_pick s O t IN Ht) as (R & P & IN').
    destruct (pop_valid s t R u l IN' ET Hu) as (s1 & p & L & c & t1 & r & E1 & E2 & E3 & E4 & IN2).
    exists s1, (setP p t1 r t :: R). split; [exact E1|]. split; [exact E2|]. split; [exact E3|]. split; [exact IN2|].
    intros x Hx. apply (Permutation_in _ P) in Hx. destruct Hx as [<-|Hx].
    + exists (setP p t1 r t). split; [left; reflexivity|]. eapply pop_step; [left; reflexivity|exact E4|constructor].
    + exists x. split; [right; exact Hx|constructor].
  - destruct (pop_invalid s O u l IN ET Q) as (s1 & E1 & E2 & E3 & IN2). exists s1, O. split; [exact E1|]. split; [exact E2|]. split; [exact E3|]. split; [exact IN2|].
    intros x Hx. exists x. split; [exact Hx|constructor].
Qed.
Lemma popr_trans : forall U a b c, popr U a b -> popr U b c -> popr U a c.
Proof. intros U a b c P Q. induction P; [exact Q|]. eapply pop_step; eauto. Qed.
Lemma pops_ok : forall l n s O, INV s O -> tr s = l ->
  exists s' O' U, pops l n s = Ret s' /\ info s' = info s /\ nb s' = nb s /\ INV s' O' /\ l = U ++ tr s' /\
    length (tr s') = Nat.min (length l) n /\ forall t, In t O -> exists t', In t' O' /\ popr U t t'.
Proof.
  induction l as [|u l IH]; intros n s O IN ET.
  - exists s, O, []. rewrite ET. repeat (split; [try reflexivity; try exact IN|]). intros t Ht. exists t. split; [exact Ht|constructor].
  - cbn [pops]. destruct (Nat.leb_spec (length (u :: l)) n) as [Q|Q].
    + exists s, O, []. rewrite ET. split; [reflexivity|]. split; [reflexivity|]. split; [reflexivity|]. split; [exact IN|]. split; [reflexivity|]. split; [lia|].
      intros t Ht. exists t. split; [exact Ht|constructor].
    + destruct (pop_ok s O u l IN ET) as (s1 & O1 & E1 & E2 & E3 & IN1 & T1). rewrite E1. cbn [bind].
      destruct (IH n (set_tr s1 l) O1 IN1 eq_refl) as (s' & O' & U & F1 & F2 & F3 & IN2 & F4 & F5 & T2).
      exists s', O', (u :: U). split; [exact F1|]. cbn [info nb set_tr] in F2, F3. split; [congruence|]. split; [congruence|]. split; [exact IN2|].
      split; [cbn [app]; congruence|]. split; [cbn [length] in Q |- *; lia|].
      intros t Ht. destruct (T1 t Ht) as (t' & Ht' & P1). destruct (T2 t' Ht') as (t2 & Ht2 & P2). exists t2. split; [exact Ht2|].
      apply (popr_trans _ _ t'); [apply (popr_incl [u]); [intros x [<-|[]]; left; reflexivity|exact P1]|apply (popr_incl U); [apply incl_tl; apply incl_refl|exact P2]].
Qed.
