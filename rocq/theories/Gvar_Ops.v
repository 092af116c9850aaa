(** Proofs for C38, C39: the operations on a variable. *)
Require Import ZArith List Bool Arith Lia Permutation Sorted.
Require Import Verif.Heap_Model Verif.Gvar_Model Verif.Gvar_Spec Verif.Gvar_Tree Verif.Gvar_Free Verif.Gvar_Build Verif.Gvar_Grow Verif.Gvar_Inv Verif.Gvar_Steps Verif.Gvar_Pops Verif.Gvar_Exec.
Import ListNotations.
Open Scope nat_scope.

Lemma target_eq : forall a p s, Get_Target_From_Gvar (elem a p) s =
  let (b, s) := get_var a s in
  do e <- rd (b, 0) s;
  match idx p, e_c e with
  | INil, _ | _, CArr _ _ => walk (idx p) (b, 0) s
  | _, _ => Ret (None, s)
  end.
Proof. reflexivity. Qed.

Lemma target_ok : forall a p s O, INV s O ->
  exists res s' b c h c' R, Get_Target_From_Gvar (elem a p) s = Ret (res, s') /\ INV s' (root b c' h :: R) /\
    info s' a = Some b /\ tr s' = tr s /\ nb s <= nb s' /\ value_of s a = Some (valT c) /\ valT c' = fst (vwalk p (valT c)) /\
    match snd (vwalk p (valT c)) with
    | None => res = None
    | Some q => exists L2 c2 h2, res = Some L2 /\ getP (0 :: q) (root b c' h) = Some (L2, c2, h2)
    end /\
    (s' = s /\ c' = c \/ nb s < nb s') /\
    (info s a = Some b /\ Permutation O (root b c h :: R) \/ info s a = None /\ R = O) /\
    (forall a', a' <> a -> info s' a' = info s a').
Proof.
  intros a p s O IN. destruct (get_var_ok a s O IN) as (b & s1 & c & h & R & E & IN1 & F1 & F2 & F3 & F4 & F5). rewrite target_eq, E.
  destruct (INV_elt s1 _ R [0] (b, 0) c h IN1 (root_get b c h)) as ((lo & A) & _).
  rewrite (rd_ok _ _ _ (a_cell _ _ _ _ _ A)) by apply cof_junk. cbn [bind e_c].
  assert (S1 : (s1 = s \/ nb s < nb s1) /\ (info s a = Some b /\ Permutation O (root b c h :: R) \/ info s a = None /\ R = O)).
  { destruct F4 as [(-> & P)|(Q1 & Q2 & Q3)]; [|auto]. split; [left; reflexivity|left; auto]. }
  destruct S1 as (S1 & S2).
  assert (LE : nb s <= nb s1) by (destruct S1 as [->|]; lia).
  assert (W : (exists res s' c', walk (idx p) (b, 0) s1 = Ret (res, s') /\ info s' = info s1 /\ tr s' = tr s1 /\
     INV s' (root b c' h :: R) /\ (s' = s1 /\ c' = c \/ nb s1 < nb s') /\ valT c' = fst (vwalk p (valT c)) /\
     match snd (vwalk p (valT c)) with
     | None => res = None
     | Some q => exists L2 c2 h2, res = Some L2 /\ getP (0 :: q) (root b c' h) = Some (L2, c2, h2)
     end)).
  { destruct (walk_ok p s1 _ R [0] _ _ _ IN1 (root_get b c h)) as (res & s' & c' & W1 & W2 & W3 & W4 & W5 & W6 & W7). exists res, s', c'. auto 10. }
  assert (FIN : exists res s' b0 c0 h0 c' R0,
     (match idx p, cof c with INil, _ | _, CArr _ _ => walk (idx p) (b, 0) s1 | _, _ => Ret (None, s1) end) = Ret (res, s') /\ INV s' (root b0 c' h0 :: R0) /\
     info s' = info s1 /\ tr s' = tr s1 /\ nb s <= nb s' /\ b0 = b /\ c0 = c /\ h0 = h /\ R0 = R /\ valT c' = fst (vwalk p (valT c)) /\
     match snd (vwalk p (valT c)) with
     | None => res = None
     | Some q => exists L2 c2 h2, res = Some L2 /\ getP (0 :: q) (root b c' h) = Some (L2, c2, h2)
     end /\ (s' = s /\ c' = c \/ nb s < nb s')).
  { destruct W as (res & s' & c' & W1 & W2 & W3 & W4 & W5 & W6 & W7).
    assert (G1 : exists res s' b0 c0 h0 c' R0, walk (idx p) (b, 0) s1 = Ret (res, s') /\ INV s' (root b0 c' h0 :: R0) /\
     info s' = info s1 /\ tr s' = tr s1 /\ nb s <= nb s' /\ b0 = b /\ c0 = c /\ h0 = h /\ R0 = R /\ valT c' = fst (vwalk p (valT c)) /\
     match snd (vwalk p (valT c)) with
     | None => res = None
     | Some q => exists L2 c2 h2, res = Some L2 /\ getP (0 :: q) (root b c' h) = Some (L2, c2, h2)
     end /\ (s' = s /\ c' = c \/ nb s < nb s')).
    { exists res, s', b, c, h, c', R. split; [exact W1|]. split; [exact W4|]. split; [exact W2|]. split; [exact W3|].
      split; [destruct W5 as [(-> & _)|]; lia|]. do 4 (split; [reflexivity|]). split; [exact W6|]. split; [exact W7|].
      destruct W5 as [(-> & ->)|W5]; [|right; lia]. destruct S1 as [->|S1]; [left; auto|right; exact S1]. }
    destruct p as [|i p]; [exact G1|]. destruct (is_arr c) eqn:IA.
    - destruct c; try discriminate IA. exact G1.
    - exists None, s1, b, c, h, c, R. assert (EV : vwalk (i :: p) (valT c) = (valT c, None)) by (destruct c; try discriminate IA; reflexivity). rewrite EV. cbn [fst snd].
      split; [destruct c; try discriminate IA; reflexivity|]. split; [exact IN1|]. split; [reflexivity|]. split; [reflexivity|]. split; [exact LE|].
      do 4 (split; [reflexivity|]). split; [reflexivity|]. split; [reflexivity|]. destruct S1 as [->|S1]; [left; auto|right; exact S1]. }
  destruct FIN as (res & s' & b0 & c0 & h0 & c' & R0 & E1 & I1 & I2 & I3 & I4 & -> & -> & -> & -> & I5 & I6 & I7).
  exists res, s', b, c, h, c', R. split; [exact E1|]. split; [exact I1|]. split; [congruence|]. split; [congruence|]. split; [exact I4|].
  split; [exact F3|]. split; [exact I5|]. split; [exact I6|]. split; [exact I7|]. split; [exact S2|]. intros a' N. rewrite I2. apply F5. exact N.
Qed.

(** ** An assignment, once the element is known *)
Lemma bad_assign : forall x L bt cp s e, bad_src x -> rd L s = Ret e -> G_Assign_Element x L bt cp s = Ret (AErr s).
Proof.
  intros [w|w|op n init|op [|y ys]|] L bt cp s e B E; cbn [bad_src] in B; try contradiction; cbn [G_Assign_Element]; rewrite E; cbn [bind]; try reflexivity.
  destruct (Z.ltb_spec 0 n); [lia|reflexivity].
Qed.
Lemma elt_assign : forall x (bt cp : bool) s t R p L c hs, wf_src x -> INV s (t :: R) -> getP p t = Some (L, c, hs) -> size_ok bt x (valT c) ->
  exists s' c1 h1 G, G_Assign_Element x L bt cp s = Ret (AOk s') /\ INV s' (setP p c1 h1 t :: G ++ R) /\
    info s' = info s /\ nb s <= nb s' /\ valT c1 = vassign bt x (valT c) /\
    (bt = false -> tr s' = tr s /\ (src_op x <> Some G_ARRAY_EXTEND -> h1 = HNil /\ uidsT c1 = [])) /\
    (bt = true -> exists u, nb s <= u /\ tr s' = u :: tr s /\ h1 = HCons u c hs).
Proof.
  intros x bt cp s t R p L c hs W IN E SO. destruct (INV_elt s t R p L c hs IN E) as ((lo & A) & _). destruct bt.
  - destruct (assign_b x cp s L c hs lo W A SO) as (s1 & t' & -> & F). destruct (step_b s s1 t R p L c hs t' _ IN E F) as (s' & -> & F1 & F2 & F3 & IN').
    pose proof (i_tlt _ _ IN') as Q. rewrite F2 in Q. apply Forall_inv in Q.
    exists s', t', (HCons (nb s1) c hs), []. split; [reflexivity|]. split; [exact IN'|]. split; [exact F1|]. split; [lia|].
    split; [exact (f_v _ _ _ _ _ _ F)|]. split; [discriminate|]. intros _. exists (nb s1). auto.
  - destruct (extends x c) eqn:EX.
    + unfold extends in EX. destruct (src_op x) as [[]|] eqn:OP; try discriminate EX. destruct c as [w|b w|b l d]; try discriminate EX.
      destruct (assign_ext x cp s L b l d hs lo W A OP) as (s' & b1 & ln & -> & EN & V).
      { unfold size_ok in SO. cbn [valT] in SO. rewrite OP, valL_len in SO. apply SO. right. reflexivity. }
      destruct (step_grow s s' t R p L b l d hs b1 ln IN E EN) as (F1 & F2 & F3 & IN').
      exists s', (TArr b1 (catL l ln) d), hs, []. split; [reflexivity|]. split; [exact IN'|]. split; [exact F1|]. split; [lia|]. split; [exact V|].
      split; [|discriminate]. intros _. split; [exact F2|]. intros N. exfalso. apply N. reflexivity.
    + destruct (all_assignable x W cp s L c hs lo A EX) as (s' & -> & AS).
      destruct (step_nb s s' t R p L c hs _ IN E AS) as (F1 & F2 & F3 & t' & V & UN & IN').
      exists s', t', HNil, (savH hs ++ savT c). split; [reflexivity|]. split; [exact IN'|]. split; [exact F1|]. split; [exact F3|].
      split; [rewrite (vassign_nb x c EX W); exact V|]. split; [|discriminate]. auto.
Qed.

(** ** The effect on the other variables *)
Record moved (a : Z) (s s' : gst) (O O' : list T) : Prop := {
  m_inv : INV s' O';
  m_nb : nb s <= nb s';
  m_info : forall a', a' <> a -> info s' a' = info s a';
  m_own : forall b, info s a = Some b -> info s' a = Some b;
  m_keep : forall t, In t O -> (forall b c h, info s a = Some b -> t <> root b c h) -> In t O' }.
Lemma moved_value : forall a s s' O O' a', INV s O -> moved a s s' O O' -> a' <> a -> value_of s' a' = value_of s a'.
Proof.
  intros a s s' O O' a' IN [M1 M2 M3 M4 M5] N. destruct (info s a') as [b'|] eqn:E.
  - destruct (i_root _ _ IN a' b' E) as (c & h & Ht). rewrite (root_value s O a' b' c h IN E Ht).
    apply (root_value s' O' a' b' c h M1); [rewrite M3 by exact N; exact E|]. apply M5; [exact Ht|].
    intros b c1 h1 Eb Q. injection Q as -> _ _. apply N. apply (i_inj _ _ IN a' a b E Eb).
  - unfold value_of. rewrite (M3 a' N), E. reflexivity.
Qed.
Lemma moved_root : forall a s s' O O' a' b c h, INV s O -> moved a s s' O O' -> a' <> a -> info s a' = Some b -> In (root b c h) O ->
  info s' a' = Some b /\ In (root b c h) O'.
Proof.
  intros a s s' O O' a' b c h IN [M1 M2 M3 M4 M5] N E Ht. split; [rewrite M3 by exact N; exact E|]. apply M5; [exact Ht|].
  intros b' c1 h1 Eb Q. injection Q as -> _ _. apply N. apply (i_inj _ _ IN a' a _ E Eb).
Qed.

Lemma target_moved : forall a s s' b c h t' R O G,
  info s a = Some b /\ Permutation O (root b c h :: R) \/ info s a = None /\ R = O ->
  INV s O -> INV s' (t' :: G ++ R) -> nb s <= nb s' -> (forall a', a' <> a -> info s' a' = info s a') -> info s' a = Some b ->
  moved a s s' O (t' :: G ++ R).
Proof.
  intros a s s' b c h t' R O G C IN IN' LN IF IA. constructor; auto.
  - intros b' Eb. destruct C as [(E & _)|(E & _)]; rewrite E in Eb; [injection Eb as <-; exact IA|discriminate Eb].
  - intros t Ht N. destruct C as [(E & P)|(E & ->)].
    + apply (Permutation_in _ P) in Ht. destruct Ht as [<-|Ht]; [exfalso; exact (N b c h E eq_refl)|]. right. apply in_or_app. right. exact Ht.
    + right. apply in_or_app. right. exact Ht.
Qed.
Lemma root_cons : forall b c h q L2 c2 h2 c1 h1, getP (0 :: q) (root b c h) = Some (L2, c2, h2) ->
  exists c' h', setP (0 :: q) c1 h1 (root b c h) = root b c' h' /\ vget q (valT c) = Some (valT c2) /\ valT c' = vset q (valT c1) (valT c).
Proof.
  intros b c h q L2 c2 h2 c1 h1 E. unfold root in *. rewrite getP_cons in E. rewrite setP_cons. cbn [nthL] in *. destruct q as [|j q].
  - injection E as <- <- <-. exists c1, h1. cbn [updL vget vset]. auto.
  - exists (setP (j :: q) c1 h1 c), h. cbn [updL]. split; [reflexivity|]. split; [apply (val_getP _ _ _ _ _ E)|apply (val_setP _ _ _ _ _ _ _ E)].
Qed.

Lemma assign_ok : forall x (bt cp : bool) a p s O v, INV s O -> value_of s a = Some v -> (wf_src x /\ fits bt s a p x) \/ bad_src x ->
  exists res s' O', G_Assign (elem a p) x bt cp s = Ret res /\
    res = (match snd (vwalk p v) with Some _ => match x with SBad | SArrL _ [] => AErr s' | SArrN _ n _ => if (0 <? n)%Z then AOk s' else AErr s' | _ => AOk s' end | None => AErr s' end) /\
    moved a s s' O O' /\
    (wf_src x -> value_of s' a = Some (vresult bt p x v)) /\ (bad_src x -> value_of s' a = Some (fst (vwalk p v))) /\
    (bt = false -> tr s' = tr s) /\
    (tr s' = tr s \/ exists u, nb s <= u /\ tr s' = u :: tr s) /\
    (bt = true -> quiet (elem a p) s -> forall b c h, info s a = Some b -> In (root b c h) O ->
       exists t', In t' O' /\ (t' = root b c h \/
         exists pth L c1 c2 hs u, getP pth (root b c h) = Some (L, c2, hs) /\ t' = setP pth c1 (HCons u c2 hs) (root b c h) /\ nb s <= u)) /\
    (bt = false -> p = [] -> wf_src x -> src_op x <> Some G_ARRAY_EXTEND -> exists b c h, info s' a = Some b /\ In (root b c h) O' /\ uidsT (root b c h) = []).
Proof.
  intros x bt cp a p s O v IN EV OK.
  destruct (target_ok a p s O IN) as (res & s1 & b & c & h & c' & R & E & IN1 & F1 & F2 & F3 & F4 & F5 & F6 & F7 & F8 & F9).
  rewrite EV in F4. injection F4 as ->. unfold G_Assign. rewrite E. cbn [bind].
  assert (M0 : moved a s s1 O (root b c' h :: [] ++ R)) by (apply (target_moved a s s1 b c h _ R O []); auto).
  assert (V0 : value_of s1 a = Some (fst (vwalk p (valT c)))) by (rewrite <- F5; apply (root_value s1 _ a b c' h IN1 F1); left; reflexivity).
  assert (Q0 : bt = true -> quiet (elem a p) s -> forall b0 c0 h0, info s a = Some b0 -> In (root b0 c0 h0) O ->
       b0 = b /\ root b0 c0 h0 = root b c' h /\ s1 = s).
  { intros _ (r & Q) b0 c0 h0 Eb Hb. rewrite E in Q. injection Q as _ ->. destruct F7 as [(_ & ->)|F7]; [|lia].
    rewrite F1 in Eb. injection Eb as ->. split; [reflexivity|]. split; [|reflexivity]. apply (root_one s O b0); [exact IN|exact Hb|].
    destruct F8 as [(_ & P)|(N & _)]; [|congruence]. apply (Permutation_in _ (Permutation_sym P)). left. reflexivity. }
  destruct (vwalk p (valT c)) as [v1 [q|]] eqn:EW; cbn [fst snd] in *.
  2:{ subst res. exists (AErr s1), s1, (root b c' h :: [] ++ R). split; [reflexivity|]. split; [reflexivity|]. split; [exact M0|].
      split; [unfold vresult; rewrite EW; intros _; exact V0|]. split; [auto|]. split; [auto|]. split; [auto|]. split; [|intros _ ->; discriminate EW].
      intros B Q b0 c0 h0 Eb Hb. destruct (Q0 B Q b0 c0 h0 Eb Hb) as (-> & -> & ->). exists (root b c' h). split; [left; reflexivity|left; reflexivity]. }
  destruct F6 as (L2 & c2 & h2 & -> & EG). destruct OK as [(W & FIT)|BAD].
  - assert (SO : size_ok bt x (valT c2)).
    { destruct (root_cons b c' h q L2 c2 h2 c2 h2 EG) as (c3 & h3 & _ & VG & _). apply (FIT (valT c) q (valT c2) EV); [rewrite EW; reflexivity|]. rewrite EW. cbn [fst]. rewrite <- F5. exact VG. }
    destruct (elt_assign x bt cp s1 _ R _ _ _ _ W IN1 EG SO) as (s' & c1 & h1 & G & -> & IN2 & A1 & A2 & A3 & A4 & A5).
    destruct (root_cons b c' h q L2 c2 h2 c1 h1 EG) as (c3 & h3 & ES & VG & VS).
    exists (AOk s'), s', (setP (0 :: q) c1 h1 (root b c' h) :: G ++ R). split; [reflexivity|]. split.
    { destruct x as [w|w|op n init|op [|y ys]|]; try reflexivity; cbn in W; [destruct (Z.ltb_spec 0 n); [reflexivity|lia]|destruct W; congruence|destruct W]. }
    split; [apply (target_moved a s s' b c h); auto; [lia|intros a' N; rewrite A1; apply F9; exact N|congruence]|].
    split.
    { intros _. rewrite (root_value s' _ a b c3 h3 IN2); [|congruence|left; exact ES]. unfold vresult. rewrite EW, <- F5, VG, VS, A3. reflexivity. }
    split; [intros B; exfalso; destruct x as [w|w|op n init|op [|y ys]|]; cbn in W, B; try tauto; lia|].
    split; [intros B; rewrite <- F2; apply A4; exact B|]. split.
    { destruct bt; [right; destruct (A5 eq_refl) as (u & Lu & Tu & _); exists u; split; [lia|congruence]|left; rewrite <- F2; apply A4; reflexivity]. }
    split.
    + intros B Q b0 c0 h0 Eb Hb. destruct (Q0 B Q b0 c0 h0 Eb Hb) as (-> & -> & ->). destruct (A5 B) as (u & Lu & Tu & ->).
      eexists. split; [left; reflexivity|]. right. exists (0 :: q), L2, c1, c2, h2, u. auto.
    + intros B -> _ NE. cbn in EW. injection EW as _ <-. destruct (A4 B) as (_ & A6). destruct (A6 NE) as (-> & UN). exists b, c1, HNil.
      split; [congruence|]. split; [left; reflexivity|]. cbn. rewrite UN. reflexivity.
  - destruct (INV_elt s1 _ R (0 :: q) L2 c2 h2 IN1 EG) as ((lo & A) & _).
    rewrite (bad_assign x L2 bt cp s1 _ BAD (rd_ok _ _ _ (a_cell _ _ _ _ _ A) (cof_junk c2))).
    exists (AErr s1), s1, (root b c' h :: [] ++ R). split; [reflexivity|]. split.
    { destruct x as [w|w|op n init|op [|y ys]|]; cbn [bad_src] in BAD; try contradiction; try reflexivity. destruct (Z.ltb_spec 0 n); [lia|reflexivity]. }
    split; [exact M0|].
    split; [intros W; exfalso; destruct x as [w|w|op n init|op [|y ys]|]; cbn in W, BAD; try tauto; lia|].
    split; [auto|]. split; [auto|]. split; [auto|]. split.
    + intros B Q b0 c0 h0 Eb Hb. destruct (Q0 B Q b0 c0 h0 Eb Hb) as (-> & -> & ->). exists (root b c' h). split; [left; reflexivity|left; reflexivity].
    + intros _ _ W. exfalso. destruct x as [w|w|op n init|op [|y ys]|]; cbn in W, BAD; try tauto; lia.
Qed.

Lemma read_moved : forall a p s O v, INV s O -> value_of s a = Some v ->
  exists s' O', G_Read (elem a p) s = Ret (match snd (vwalk p v) with Some q => option_map show (vget q (fst (vwalk p v))) | None => None end, s') /\
    moved a s s' O O' /\ value_of s' a = Some (fst (vwalk p v)) /\ tr s' = tr s /\
    (match snd (vwalk p v) with Some q => vget q (fst (vwalk p v)) <> None | None => True end) /\
    (quiet (elem a p) s -> forall b c h, info s a = Some b -> In (root b c h) O -> In (root b c h) O').
Proof.
  intros a p s O v IN EV.
  destruct (target_ok a p s O IN) as (res & s1 & b & c & h & c' & R & E & IN1 & F1 & F2 & F3 & F4 & F5 & F6 & F7 & F8 & F9).
  rewrite EV in F4. injection F4 as ->. unfold G_Read. rewrite E. cbn [bind].
  exists s1, (root b c' h :: [] ++ R).
  assert (M0 : moved a s s1 O (root b c' h :: [] ++ R)) by (apply (target_moved a s s1 b c h _ R O []); auto).
  assert (V0 : value_of s1 a = Some (fst (vwalk p (valT c)))) by (rewrite <- F5; apply (root_value s1 _ a b c' h IN1 F1); left; reflexivity).
  split; [|split; [exact M0|split; [exact V0|split; [exact F2|]]]].
  - destruct (snd (vwalk p (valT c))) as [q|]; [|subst res; reflexivity]. destruct F6 as (L2 & c2 & h2 & -> & EG).
    destruct (INV_elt s1 _ R (0 :: q) L2 c2 h2 IN1 EG) as ((lo & A) & _). rewrite (proj1 (read_ok _ _ _ _ _ A)). cbn [bind].
    destruct (root_cons b c' h q L2 c2 h2 c2 h2 EG) as (c3 & h3 & _ & VG & _). rewrite <- F5, VG. reflexivity.
  - split.
    { destruct (snd (vwalk p (valT c))) as [q|]; [|exact I]. destruct F6 as (L2 & c2 & h2 & -> & EG).
      destruct (root_cons b c' h q L2 c2 h2 c2 h2 EG) as (c3 & h3 & _ & VG & _). rewrite <- F5, VG. discriminate. }
    intros (r & Q) b0 c0 h0 Eb Hb. rewrite E in Q. injection Q as _ ->. destruct F7 as [(_ & ->)|F7]; [|lia].
    left. rewrite F1 in Eb. injection Eb as ->. apply (root_one s O b0); [exact IN| |exact Hb].
    destruct F8 as [(_ & P)|(N & _)]; [|congruence]. apply (Permutation_in _ (Permutation_sym P)). left. reflexivity.
Qed.
