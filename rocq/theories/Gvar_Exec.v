(** Proofs for C38, C39: elements, reading, and the operations. *)
Require Import ZArith List Bool Arith Lia Permutation Sorted.
Require Import Verif.Heap_Model Verif.Gvar_Model Verif.Gvar_Spec Verif.Gvar_Tree Verif.Gvar_Free Verif.Gvar_Build Verif.Gvar_Grow Verif.Gvar_Inv Verif.Gvar_Steps Verif.Gvar_Pops.
Import ListNotations.
Open Scope nat_scope.

(** ** Paths *)
Lemma nthL_val : forall l i, nth_error (valL l) i = option_map (fun x => valT (fst x)) (nthL l i).
Proof. induction l as [|t h r IH]; intros [|i]; cbn; auto. Qed.
Lemma updL_val : forall l i t h, valL (updL l i t h) = set_nth (valL l) i (valT t).
Proof. induction l as [|t0 h0 r IH]; intros [|i] t h; cbn; congruence. Qed.
Lemma nthL_updL : forall l i t h x, nthL l i = Some x -> nthL (updL l i t h) i = Some (t, h).
Proof. induction l as [|t0 h0 r IH]; intros [|i] t h x E; cbn in *; try discriminate; eauto. Qed.
Lemma updL_updL : forall l i t h t' h', updL (updL l i t h) i t' h' = updL l i t' h'.
Proof. induction l as [|t0 h0 r IH]; intros [|i] t h t' h'; cbn; congruence. Qed.
Lemma updL_same : forall l i t h, nthL l i = Some (t, h) -> updL l i t h = l.
Proof. induction l as [|t0 h0 r IH]; intros [|i] t h E; cbn in *; try discriminate; [congruence|]. rewrite IH by exact E. reflexivity. Qed.
Lemma set_nth_set : forall {A} (l : list A) i x y, set_nth (set_nth l i x) i y = set_nth l i y.
Proof. induction l as [|a l IH]; intros [|i] x y; cbn; congruence. Qed.
Lemma set_nth_same : forall {A} (l : list A) i x, nth_error l i = Some x -> set_nth l i x = l.
Proof. induction l as [|a l IH]; intros [|i] x E; cbn in *; try discriminate; [congruence|]. rewrite IH by exact E. reflexivity. Qed.

Lemma getP_cons : forall i p b l d, getP (i :: p) (TArr b l d) =
  match nthL l i with Some (t, h) => match p with [] => Some ((b, i), t, h) | _ => getP p t end | None => None end.
Proof. reflexivity. Qed.
Lemma getP_app : forall p q t L c hs, getP p t = Some (L, c, hs) -> q <> [] -> getP (p ++ q) t = getP q c.
Proof.
  induction p as [|i p IH]; intros q t L c hs E NQ; [destruct t; discriminate E|]. destruct t as [w|b w|b l d]; try discriminate E.
  cbn [app]. rewrite getP_cons in *. destruct (nthL l i) as [[t0 h0]|]; [|discriminate E]. destruct p as [|j p].
  - injection E as _ -> _. cbn [app]. destruct q; [contradiction|reflexivity].
  - rewrite <- (IH q t0 L c hs E NQ). reflexivity.
Qed.
Lemma setP_cons : forall i p b l d c h, setP (i :: p) c h (TArr b l d) =
  match nthL l i with Some (t, h0) => TArr b (match p with [] => updL l i c h | _ => updL l i (setP p c h t) h0 end) d | None => TArr b l d end.
Proof. reflexivity. Qed.
Lemma setP_app : forall p q t L c hs c2 h2, getP p t = Some (L, c, hs) -> q <> [] -> setP (p ++ q) c2 h2 t = setP p (setP q c2 h2 c) hs t.
Proof.
  induction p as [|i p IH]; intros q t L c hs c2 h2 E NQ; [destruct t; discriminate E|]. destruct t as [w|b w|b l d]; try discriminate E.
  cbn [app]. rewrite getP_cons in E. rewrite !setP_cons. destruct (nthL l i) as [[t0 h0]|] eqn:EN; [|discriminate E]. destruct p as [|j p].
  - injection E as _ -> ->. cbn [app]. destruct q; [contradiction|reflexivity].
  - rewrite <- (IH q t0 L c hs c2 h2 E NQ). reflexivity.
Qed.
Lemma getP_setP : forall p t L c hs c2 h2, getP p t = Some (L, c, hs) -> getP p (setP p c2 h2 t) = Some (L, c2, h2).
Proof.
  induction p as [|i p IH]; intros t L c hs c2 h2 E; [destruct t; discriminate E|]. destruct t as [w|b w|b l d]; try discriminate E.
  rewrite setP_cons. rewrite getP_cons in E. destruct (nthL l i) as [[t0 h0]|] eqn:EN; [|discriminate E]. rewrite getP_cons. destruct p as [|j p].
  - injection E as <- _ _. rewrite (nthL_updL l i c2 h2 _ EN). reflexivity.
  - rewrite (nthL_updL l i _ _ _ EN). apply (IH t0 L c hs c2 h2 E).
Qed.
Lemma setP_setP : forall p t L c hs c1 h1 c2 h2, getP p t = Some (L, c, hs) -> setP p c2 h2 (setP p c1 h1 t) = setP p c2 h2 t.
Proof.
  induction p as [|i p IH]; intros t L c hs c1 h1 c2 h2 E; [destruct t; discriminate E|]. destruct t as [w|b w|b l d]; try discriminate E.
  rewrite !setP_cons. rewrite getP_cons in E. destruct (nthL l i) as [[t0 h0]|] eqn:EN; [|discriminate E]. rewrite setP_cons. destruct p as [|j p].
  - rewrite (nthL_updL l i c1 h1 _ EN), updL_updL. reflexivity.
  - rewrite (nthL_updL l i _ _ _ EN), updL_updL, (IH t0 L c hs c1 h1 c2 h2 E). reflexivity.
Qed.
Lemma setP_same : forall p t L c hs, getP p t = Some (L, c, hs) -> setP p c hs t = t.
Proof.
  induction p as [|i p IH]; intros t L c hs E; [destruct t; discriminate E|]. destruct t as [w|b w|b l d]; try discriminate E.
  rewrite setP_cons. rewrite getP_cons in E. destruct (nthL l i) as [[t0 h0]|] eqn:EN; [|discriminate E]. destruct p as [|j p].
  - injection E as _ -> ->. rewrite (updL_same _ _ _ _ EN). reflexivity.
  - rewrite (IH t0 L c hs E), (updL_same _ _ _ _ EN). reflexivity.
Qed.
Lemma val_getP : forall p t L c hs, getP p t = Some (L, c, hs) -> vget p (valT t) = Some (valT c).
Proof.
  induction p as [|i p IH]; intros t L c hs E; [destruct t; discriminate E|]. destruct t as [w|b w|b l d]; try discriminate E.
  rewrite getP_cons in E. cbn [valT vget]. rewrite nthL_val. destruct (nthL l i) as [[t0 h0]|] eqn:EN; [|discriminate E]. cbn [option_map fst]. destruct p as [|j p].
  - injection E as _ -> _. reflexivity.
  - apply (IH t0 L c hs E).
Qed.
Lemma val_setP : forall p t L c hs c2 h2, getP p t = Some (L, c, hs) -> valT (setP p c2 h2 t) = vset p (valT c2) (valT t).
Proof.
  induction p as [|i p IH]; intros t L c hs c2 h2 E; [destruct t; discriminate E|]. destruct t as [w|b w|b l d]; try discriminate E.
  rewrite setP_cons. rewrite getP_cons in E. cbn [valT vset]. rewrite nthL_val. destruct (nthL l i) as [[t0 h0]|] eqn:EN; [|discriminate E]. cbn [option_map fst valT]. rewrite !updL_val || idtac. destruct p as [|j p].
  - rewrite updL_val. reflexivity.
  - rewrite updL_val, (IH t0 L c hs c2 h2 E). reflexivity.
Qed.

(** ** One index *)
Lemma power_pow : forall k i x, (0 <= i)%Z -> (0 <= x)%Z -> (i < 2 ^ Z.of_nat k * 2 ^ x)%Z -> (x = 0 \/ 2 ^ (x - 1) <= i)%Z ->
  power_above k i (2 ^ x) = if (i <? 2 ^ x)%Z then (2 ^ x)%Z else (2 ^ (Z.log2 i + 1))%Z.
Proof.
  induction k as [|k IH]; intros i x I0 X0 B LO; cbn [power_above].
  - change (Z.of_nat 0) with 0%Z in B. rewrite Z.pow_0_r, Z.mul_1_l in B. destruct (Z.ltb_spec i (2 ^ x)); [reflexivity|lia].
  - destruct (Z.leb_spec (2 ^ x) i) as [Q|Q]; destruct (Z.ltb_spec i (2 ^ x)); try lia; try reflexivity.
    replace (2 * 2 ^ x)%Z with (2 ^ (x + 1))%Z by (rewrite Z.pow_add_r by lia; lia). rewrite IH; [|lia|lia| |].
    + destruct (Z.ltb_spec i (2 ^ (x + 1))) as [Q2|Q2]; [|reflexivity]. f_equal. f_equal. symmetry. apply Z.log2_unique; [lia|]. unfold Z.succ. lia.
    + rewrite Nat2Z.inj_succ, Z.pow_succ_r in B by lia. rewrite (Z.pow_add_r 2 x 1) by lia. lia.
    + right. replace (x + 1 - 1)%Z with x by lia. exact Q.
Qed.
Lemma power_ok : forall i, (0 <= i <= 2 ^ 20)%Z -> power_above 21 i 1 = next_pow i.
Proof.
  intros i B. change 1%Z with (2 ^ 0)%Z at 1. rewrite power_pow; [|lia|lia| |left; reflexivity].
  - unfold next_pow. change (2 ^ 0)%Z with 1%Z. destruct (Z.ltb_spec i 1), (Z.eqb_spec i 0); try lia; reflexivity.
  - change (2 ^ Z.of_nat 21 * 2 ^ 0)%Z with 2097152%Z. change (2 ^ 20)%Z with 1048576%Z in B. lia.
Qed.
Lemma next_pow_gt : forall i, (0 <= i)%Z -> (i < next_pow i)%Z.
Proof.
  intros i B. unfold next_pow. destruct (Z.eqb_spec i 0); [lia|]. destruct (Z.log2_spec i) as (_ & Q); [lia|]. exact Q.
Qed.
Lemma room_len : forall l d i l', room l d i = Some l' -> (0 <= i)%Z /\ Z.to_nat i < length l'.
Proof.
  intros l d i l' E. unfold room in E. destruct (Z.ltb_spec i 0); [discriminate E|]. split; [assumption|].
  destruct (Z.ltb_spec i (Z.of_nat (length l))); [injection E as <-; lia|]. destruct d as [x|]; [|discriminate E].
  destruct (2 ^ 20 <? i)%Z; [discriminate E|]. injection E as <-. rewrite app_length, repeat_length. pose proof (next_pow_gt i). lia.
Qed.

Lemma index_ok : forall i s t R p L c hs, INV s (t :: R) -> getP p t = Some (L, c, hs) ->
  exists res s' c', index_element L (cof c) i s = Ret (res, s') /\ info s' = info s /\ tr s' = tr s /\
    INV s' (setP p c' hs t :: R) /\ (s' = s /\ c' = c \/ nb s < nb s') /\
    match valT c with
    | AWord _ => res = None /\ c' = c
    | AArr l d =>
      match room l d i with
      | None => res = None /\ c' = c
      | Some l' => exists b lt dt, c' = TArr b lt dt /\ valL lt = l' /\ valD dt = d /\ res = Some (b, Z.to_nat i)
      end
    end.
Proof.
  intros i s t R p L c hs IN E. destruct (INV_elt s t R p L c hs IN E) as ((lo & A) & _).
  assert (SAME : INV s (setP p c hs t :: R)) by (rewrite (setP_same p t L c hs E); exact IN).
  destruct c as [w|b w|b l d]; cbn [cof valT index_element].
  - exists None, s. eexists. split; [reflexivity|]. split; [reflexivity|]. split; [reflexivity|]. split; [exact SAME|]. auto.
  - exists None, s. eexists. split; [reflexivity|]. split; [reflexivity|]. split; [reflexivity|]. split; [exact SAME|]. auto.
  - unfold room. destruct (Z.ltb_spec i 0) as [Q0|Q0].
    { exists None, s. eexists. split; [reflexivity|]. split; [reflexivity|]. split; [reflexivity|]. split; [exact SAME|]. auto. }
    rewrite (rd_ok _ _ _ (a_cell _ _ _ _ _ A)) by discriminate. cbn [bind e_c cof]. rewrite valL_len.
    destruct (Z.leb_spec (Z.of_nat (lenL l)) i) as [Q1|Q1]; destruct (Z.ltb_spec i (Z.of_nat (lenL l))) as [Q1'|Q1']; try lia.
    2:{ exists (Some (b, Z.to_nat i)), s. eexists. split; [reflexivity|]. split; [reflexivity|]. split; [reflexivity|]. split; [exact SAME|]. split; [auto|]. exists b, l, d. auto. }
    destruct (a_T _ _ _ _ _ A) as (_ & _ & HD). destruct (a_o _ _ _ _ _ A) as (_ & OD). destruct d as [| |t0]; [destruct OD| |]; cbn [hD valD] in *.
    { rewrite (rd_ok _ _ _ HD) by discriminate. cbn [bind e_c].
      exists None, s. eexists. split; [reflexivity|]. split; [reflexivity|]. split; [reflexivity|]. split; [exact SAME|]. auto. }
    destruct HD as (C0 & HT0). rewrite (rd_ok _ _ _ C0) by apply cof_junk. cbn [bind e_c].
    match goal with |- context [match cof t0 with CLink _ => ?k | _ => _ end] => assert (EK : forall z, match cof t0 with CEnd => z | _ => k end = k) by (intros z; destruct t0; reflexivity); rewrite EK; clear EK end.
    change MAX_AUTO_SIZE with (2 ^ 20)%Z. destruct (Z.ltb_spec (2 ^ 20) i) as [Q2|Q2].
    { exists None, s. eexists. split; [reflexivity|]. split; [reflexivity|]. split; [reflexivity|]. split; [exact SAME|]. auto. }
    rewrite power_ok by lia. set (n := Z.to_nat (next_pow i)). pose proof (next_pow_gt i Q0) as NP.
    assert (LN : lenL l <= n) by (unfold n; lia).
    destruct (alloc_grow s L n b l (DSome t0) hs lo A LN) as (s1 & b1 & -> & G & UC). cbn [bind].
    assert (GR := grow_grows s L (hp s1 (fst L)) b b1 n l (DSome t0) (a_lt _ _ _ _ _ A)).
    assert (G0 : grow_of s L (hp s1 (fst L)) b b1 n l (DSome t0) s1 l) by (exists LNil; rewrite catL_nil; auto).
    assert (ID : forall x, In x (idsT t0) -> x < nb s) by (intros x Hx; apply (a_b _ _ _ _ _ A); right; apply in_or_app; right; exact Hx).
    destruct (copies_ok t0 _ b1 n lo (nb s) GR) with (k := n - lenL l) (s := s1) (l := l) as (s2 & l' & -> & (ln & EL & G2) & V2); auto.
    { intros s3 l3 (l4 & _ & G3). destruct (g_d _ _ _ _ _ _ _ _ _ _ G3) as (C3 & H3). split; [exact H3|]. split; [exact C3|].
      intros x Hx. specialize (ID x Hx). pose proof (g_b _ _ _ _ _ _ _ _ _ _ G3). lia. }
    { apply OD. }
    { intros Q. specialize (ID b1 Q). pose proof (g_b _ _ _ _ _ _ _ _ _ _ G). lia. }
    { intros x. pose proof (a_c _ _ _ _ _ A x) as Q. cbn [idsT idsD] in Q. rewrite cnt_cons, cnt_app in Q. lia. }
    { lia. }
    cbn [bind].
    assert (VL : valL ln = valL l').
    { assert (Q := f_equal valL EL). rewrite !catL_val in Q. apply app_inv_head in Q. auto. }
    assert (LL : lenL (catL l ln) = n) by (rewrite catL_len, <- (valL_len ln), VL, V2, repeat_length; lia).
    assert (EN : enlarged s s2 L b l (DSome t0) hs b1 ln).
    { unfold enlarged. rewrite LL. rewrite (g_L _ _ _ _ _ _ _ _ _ _ G2). split; [exact G2|].
      apply (updcell_eq (hp s) (hp s1)); [exact UC|reflexivity|exact (g_L _ _ _ _ _ _ _ _ _ _ G2)]. }
    destruct (step_grow s s2 t R p L b l (DSome t0) hs b1 ln IN E EN) as (F1 & F2 & F3 & IN2).
    exists (Some (b1, Z.to_nat i)), s2. eexists. split; [reflexivity|]. split; [exact F1|]. split; [exact F2|]. split; [exact IN2|]. split; [right; exact F3|].
    exists b1, (catL l ln), (DSome t0). split; [reflexivity|]. split; [|auto]. rewrite catL_val, VL, V2. reflexivity.
Qed.

Lemma walk_ok : forall p s t R pth L c hs, INV s (t :: R) -> getP pth t = Some (L, c, hs) ->
  exists res s' c', walk (idx p) L s = Ret (res, s') /\ info s' = info s /\ tr s' = tr s /\
    INV s' (setP pth c' hs t :: R) /\ (s' = s /\ c' = c \/ nb s < nb s') /\ valT c' = fst (vwalk p (valT c)) /\
    match snd (vwalk p (valT c)) with
    | None => res = None
    | Some q => exists L2 c2 h2, res = Some L2 /\ getP (pth ++ q) (setP pth c' hs t) = Some (L2, c2, h2)
    end.
Proof.
  induction p as [|i p IH]; intros s t R pth L c hs IN E.
  - exists (Some L), s, c. cbn [idx walk vwalk fst snd]. rewrite (setP_same pth t L c hs E), app_nil_r.
    repeat (split; [auto|]). exists L, c, hs. auto.
  - destruct (INV_elt s t R pth L c hs IN E) as ((lo & A) & _). cbn [idx walk].
    rewrite (rd_ok _ _ _ (a_cell _ _ _ _ _ A)) by apply cof_junk. cbn [bind e_c].
    destruct (index_ok i s t R pth L c hs IN E) as (res & s1 & c1 & -> & F1 & F2 & IN1 & SC & M). cbn [bind]. cbn [vwalk].
    assert (NO : forall v, v = valT c -> res = None -> c1 = c -> exists res0 s' c', match res with Some L0 => walk (idx p) L0 s1 | None => Ret (None, s1) end = Ret (res0, s') /\
       info s' = info s /\ tr s' = tr s /\ INV s' (setP pth c' hs t :: R) /\ (s' = s /\ c' = c \/ nb s < nb s') /\ valT c' = v /\ res0 = None).
    { intros v -> -> ->. exists None, s1, c. auto 10. }
    destruct (valT c) as [w|l d] eqn:EV.
    { destruct M as (-> & ->). cbn [fst snd]. apply NO; auto. }
    destruct (room l d i) as [l'|] eqn:ER; [|destruct M as (-> & ->); cbn [fst snd]; apply NO; auto].
    destruct M as (b & lt & dt & -> & VL & VD & ->). clear NO. destruct (room_len l d i l' ER) as (I0 & LI). set (k := Z.to_nat i) in *.
    destruct (nthL_some lt k) as (w & hw & EN); [rewrite <- valL_len, VL; exact LI|].
    assert (NV : nth_error l' k = Some (valT w)) by (rewrite <- VL, nthL_val, EN; reflexivity). rewrite NV.
    pose proof (getP_setP pth t L c hs (TArr b lt dt) hs E) as E1.
    assert (E2 : getP (pth ++ [k]) (setP pth (TArr b lt dt) hs t) = Some ((b, k), w, hw)).
    { rewrite (getP_app _ _ _ _ _ _ E1) by discriminate. rewrite getP_cons, EN. reflexivity. }
    destruct (IH s1 _ R _ _ _ _ IN1 E2) as (res & s2 & w' & -> & G1 & G2 & IN2 & SC2 & V2 & M).
    destruct (vwalk p (valT w)) as [vw q] eqn:EW. cbn [fst snd] in *.
    assert (ES : setP (pth ++ [k]) w' hw (setP pth (TArr b lt dt) hs t) = setP pth (TArr b (updL lt k w' hw) dt) hs t).
    { rewrite (setP_app _ _ _ _ _ _ w' hw E1) by discriminate. rewrite setP_cons, EN. apply (setP_setP pth t L c hs). exact E. }
    rewrite ES in IN2, M. exists res, s2, (TArr b (updL lt k w' hw) dt).
    split; [reflexivity|]. split; [congruence|]. split; [congruence|]. split; [exact IN2|]. split; [|split].
    + destruct SC2 as [(-> & ->)|SC2]; destruct SC as [(-> & <-)|SC]; [left|right|right|right]; try lia. split; [reflexivity|]. rewrite (updL_same _ _ _ _ EN). reflexivity.
    + cbn [valT]. rewrite updL_val, VL, VD, V2. reflexivity.
    + destruct q as [q|]; cbn [option_map]; [|exact M]. destruct M as (L2 & c2 & h2 & -> & M). exists L2, c2, h2. split; [reflexivity|].
      rewrite <- app_assoc in M. exact M.
Qed.

(** ** Reading *)
Lemma rd_all :
  (forall t s L o fuel, hT (hp s) (un s) t -> (exists lo hi, ordT lo hi t) -> cell (hp s) L = Some (Elt (cof t) o) -> depT t < fuel ->
     read_element fuel s L = Ret (show (valT t)) /\ av_at fuel s L = Some (valT t)) /\
  (forall l s b i fuel, hL (hp s) (un s) b i l -> (exists lo hi, ordL lo hi l) -> depL l < fuel ->
     read_elements (read_element fuel s) b (lenL l) i = Ret (map show (valL l)) /\ elements (av_at fuel s) b (lenL l) i = Some (valL l)) /\
  (forall h : Hs, True) /\
  (forall d s b i fuel, hD (hp s) (un s) b i d -> (exists lo hi, ordD lo hi d) -> depD d < fuel ->
     match cell (hp s) (b, i) with
     | Some (Elt CEnd _) => valD d = None
     | Some _ => av_at fuel s (b, i) = valD d /\ valD d <> None
     | None => False
     end).
Proof.
  apply tree_ind; try (intros; exact I); cbn [hT hL hD valT valL valD depT depL depD ordT ordL ordD].
  - intros w s L o [|fuel] _ _ C DF; [lia|]. cbn [read_element av_at]. rewrite (rd_ok _ _ _ C) by discriminate. rewrite C. auto.
  - intros b w s L o [|fuel] Hb _ C DF; [lia|]. cbn [read_element av_at]. rewrite (rd_ok _ _ _ C) by discriminate. rewrite C. cbn [bind e_c cof]. unfold rd_term. rewrite Hb. auto.
  - intros b l IHl d IHd s L o [|fuel] (HB & HL & HD) (lo & hi & OL & OD) C DF; [lia|]. cbn [read_element av_at]. rewrite (rd_ok _ _ _ C) by discriminate. rewrite C. cbn [bind e_c cof].
    destruct (IHl s b 0 fuel HL) as (E1 & E2); [eauto|lia|]. rewrite E1, E2. cbn [bind]. split; [reflexivity|].
    specialize (IHd s b (lenL l) fuel HD). destruct (cell (hp s) (b, lenL l)) as [[k o']|]; [|destruct IHd; [eauto|lia]].
    destruct (valD d) as [x|].
    + destruct k; try (destruct IHd as (-> & _); [eauto|lia|reflexivity]). discriminate IHd; [eauto|lia].
    + destruct k; try (destruct IHd as (_ & N); [eauto|lia|contradiction]). reflexivity.
  - intros s b i fuel _ _ DF. cbn. auto.
  - intros t IHt hs _ r IHr s b i fuel (C & Ht & _ & Hr) (lo & hi & Ot & _ & Or) DF. cbn [lenL read_elements elements].
    destruct (IHt s (b, i) (hdu hs) fuel Ht) as (E1 & E2); [eauto|exact C|lia|]. destruct (IHr s b (S i) fuel Hr) as (E3 & E4); [eauto|lia|].
    rewrite E1, E2. cbn [bind]. rewrite E3, E4. cbn [bind]. auto.
  - intros s b i fuel _ (lo & hi & []) DF.
  - intros s b i fuel C _ DF. rewrite C. reflexivity.
  - intros t IHt s b i fuel (C & Ht) (lo & hi & _ & Ot) DF. destruct (IHt s (b, i) None fuel Ht) as (_ & E); [eauto|exact C|lia|]. rewrite C, E.
    destruct t; cbn [cof]; split; congruence.
Qed.
Lemma read_ok : forall s L c hs lo, at_loc s L c hs lo ->
  read_element (S (nb s)) s L = Ret (show (valT c)) /\ av_at (S (nb s)) s L = Some (valT c).
Proof.
  intros s L c hs lo [AC AT AH AO AOH AL ACN AU AB ALT]. apply (proj1 rd_all c s L (hdu hs)); auto; [eauto|].
  pose proof (dep_nb c (nb s) ACN AB). lia.
Qed.

(** ** Variables *)
Definition root (b : nat) (c : T) (h : Hs) : T := TArr b (LCons c h LNil) DNone.
Lemma root_get : forall b c h, getP [0] (root b c h) = Some ((b, 0), c, h).
Proof. reflexivity. Qed.
Lemma root_set : forall b c h c' h', setP [0] c' h' (root b c h) = root b c' h'.
Proof. reflexivity. Qed.
Lemma root_value : forall s O a b c h, INV s O -> info s a = Some b -> In (root b c h) O -> value_of s a = Some (valT c).
Proof.
  intros s O a b c h IN E Ht. destruct (INV_pick s O _ IN Ht) as (R & _ & IN').
  destruct (INV_elt s _ R [0] (b, 0) c h IN' (root_get b c h)) as ((lo & A) & _). unfold value_of. rewrite E. apply (read_ok _ _ _ _ _ A).
Qed.
Lemma root_one : forall s O b c h c' h', INV s O -> In (root b c h) O -> In (root b c' h') O -> root b c h = root b c' h'.
Proof.
  intros s O b c h c' h' IN A B. destruct (INV_pick s O _ IN A) as (R & P & IN'). apply (Permutation_in _ P) in B. destruct B as [B|B]; [exact B|].
  exfalso. pose proof (i_b _ _ IN' b) as Q. rewrite all_cons in Q. pose proof (allI_in _ R b B (or_introl eq_refl)) as I0.
  cbn [root idsT] in Q. rewrite cnt_cons, one_same in Q. mem.
Qed.

(** the first lines of Get_Target_From_Gvar *)
Definition get_var (a : Z) (s : gst) : nat * gst :=
  match info s a with
  | Some b => (b, s)
  | None =>
    let (b, s) := malloc (BArr [Elt initial None]) s in
    (b, Gst (hp s) (un s) (fun x => if (x =? a)%Z then Some b else info s x) (nb s) (tr s))
  end.
Lemma get_var_ok : forall a s O, INV s O ->
  exists b s1 c h R, get_var a s = (b, s1) /\ INV s1 (root b c h :: R) /\ info s1 a = Some b /\ tr s1 = tr s /\
    value_of s a = Some (valT c) /\
    (s1 = s /\ Permutation O (root b c h :: R) \/ info s a = None /\ nb s < nb s1 /\ R = O) /\
    (forall a', a' <> a -> info s1 a' = info s a').
Proof.
  intros a s O IN. unfold get_var. destruct (info s a) as [b|] eqn:E.
  - destruct (i_root _ _ IN a b E) as (c & h & Ht). destruct (INV_pick s O _ IN Ht) as (R & P & IN').
    exists b, s, c, h, R. split; [reflexivity|]. split; [exact IN'|]. split; [exact E|]. split; [reflexivity|]. split; [apply (root_value s O a b c h IN E Ht)|]. auto.
  - cbn [malloc]. eexists. eexists. exists (TWord (GInt 0)), HNil, O. split; [reflexivity|]. cbn [info tr nb].
    split; [|rewrite Z.eqb_refl; split; [reflexivity|]; split; [reflexivity|]; split; [unfold value_of; rewrite E; reflexivity|]; split; [right; auto|]].
    2:{ intros a' N. destruct (Z.eqb_spec a' a); [contradiction|reflexivity]. }
    destruct IN as [A1 A2 A3 A4 A5 A6 A7 A8 A9 A10 A11 A12].
    assert (FRESH : forall x, In x (allI O) -> upd (hp s) (nb s) (Some (BArr [Elt initial None])) x = hp s x).
    { intros x Hx. apply upd_other. specialize (A3 x Hx). lia. }
    constructor; cbn [hp un info nb tr]; auto.
    + constructor.
      * cbn [root hT hL hD hH lenL sent cof hdu]. split; [exists [Elt initial None]; rewrite upd_same; auto|]. split; [|exact I].
        split; [|auto]. unfold cell. cbn [fst snd]. rewrite upd_same. reflexivity.
      * rewrite Forall_forall in *. intros t Ht. apply (frameT t (hp s) (un s)); [|reflexivity|apply A1; exact Ht]. intros x Hx. apply FRESH. apply (allI_in t); assumption.
    + intros x. rewrite all_cons. cbn [root idsT idsL idsH idsD app]. rewrite cnt_cons, cnt_nil. specialize (A2 x).
      destruct (Nat.eq_dec x (nb s)) as [->|N]; [|rewrite one_other by exact N; lia]. rewrite one_same.
      assert (~ In (nb s) (allI O)) by (intros Q; specialize (A3 _ Q); lia). mem.
    + intros x Hx. apply cnt_in in Hx. rewrite all_cons in Hx. cbn [root idsT idsL idsH idsD app] in Hx. rewrite cnt_cons, cnt_nil in Hx.
      destruct (Nat.eq_dec x (nb s)) as [->|N]; [lia|]. rewrite one_other in Hx by exact N. assert (In x (allI O)) by mem. specialize (A3 x H). lia.
    + constructor; [cbn; lia|]. rewrite Forall_forall in *. intros t Ht. apply (top_hi t 0 (nb s)); [lia|apply A5; exact Ht].
    + rewrite Forall_forall in *. intros u Hu. specialize (A7 u Hu). lia.
    + intros a' b' Q. destruct (Z.eqb_spec a' a) as [->|N].
      * injection Q as <-. exists (TWord (GInt 0)), HNil. left. reflexivity.
      * destruct (A10 a' b' Q) as (t & h & Ht). exists t, h. right. exact Ht.
    + assert (NB : forall a', info s a' <> Some (nb s)).
      { intros a' Q. destruct (A10 _ _ Q) as (t & h & Ht). specialize (A3 (nb s) (allI_in _ O (nb s) Ht (or_introl eq_refl))). lia. }
      intros a1 a2 b' Q1 Q2. destruct (Z.eqb_spec a1 a) as [->|N1], (Z.eqb_spec a2 a) as [->|N2]; [reflexivity| | |].
      * injection Q1 as <-. exfalso. exact (NB _ Q2).
      * injection Q2 as <-. exfalso. exact (NB _ Q1).
      * apply (A11 a1 a2 b'); assumption.
Qed.
