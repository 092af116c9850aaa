(** The relation between the memory and the database. *)
Require Import ZArith List Bool Lia Arith Sorted.
Require Import Verif.Heap_Model Verif.Dyn_Model Verif.Dyn_Spec Verif.Dyn_Chain Verif.Dyn_Inv Verif.Dyn_Add Verif.Dyn_Free.
Import ListNotations.
Open Scope Z_scope.

Definition ent (f : nat -> option clause) (x : nat) : entry := match f x with Some c => Entry x (c_arg c) (c_data c) | None => Entry x AArity0 0 end.
Definition stamp (f : nat -> option clause) (x : nat) : Z := match f x with Some c => c_stamp c | None => 0 end.
Definition vis (f : nat -> option clause) (sc : scan) (x : nat) : Prop := no f x < s_stop sc /\ s_stamp sc < stamp f x.
Record scok (f : nat -> option clause) (D : dynp) (l : list nat) (sc : scan) (kx : chain) (sx sv rt : list nat) : Prop := Scok {
  o_k : if s_seq sc then kx = Seq /\ sv = [] else kx <> Seq /\ kx <> KVar;
  o_x : exists px, sub f kx l = px ++ sx;
  o_xp : s_xxx sc = nxt sx None;
  o_v : exists pv, sub f KVar l = pv ++ sv;
  o_vp : s_var sc = nxt sv None;
  o_stop : s_stop sc <= count_z D;
  o_st : s_stamp sc < curr_stamp D /\ s_stamp sc < ALIVE;
  o_srt : srt f rt;
  o_in : forall x, In x rt <-> (In x sx \/ In x sv) /\ vis f sc x }.
Definition frel (f : nat -> option clause) (dy : nat -> option dynp) (pd : nat -> option nat) (L : nat -> list nat) (fr : frame) (af : aframe) : Prop :=
  match fr, af with
  | FOther e, AOther e' => e' = map (ent f) e
  | FScan k sc e, AScan p k' l e' => k' = k /\ e' = map (ent f) e /\ (forall q, pd q = Some (s_dyn sc) -> q = p) /\
      exists D c0 kx sx sv rt, dy (s_dyn sc) = Some D /\ s_clause sc = Some c0 /\ In c0 (L (s_dyn sc)) /\ l = map (ent f) (c0 :: rt) /\ scok f D (L (s_dyn sc)) sc kx sx sv rt
  | _, _ => False
  end.
Fixpoint echain (f : nat -> option clause) (p : eptr) (l : list nat) : Prop :=
  match l with [] => p = e_null | x :: l => p = EP (ECl x) false /\ exists c, f x = Some c /\ echain f (c_nexte c) l end.
Fixpoint dseg (g : nat -> option dynp) (l : list nat) (nx : option nat) : Prop :=
  match l with [] => True | d :: l => (exists D, g d = Some D /\ d_next D = nxt l nx) /\ dseg g l nx end.
Definition dlist (g : nat -> option dynp) (p : option nat) (l : list nat) : Prop := p = nxt l None /\ dseg g l None.
Definition refs (s : st) (d : nat) : Prop :=
  (exists k sc e, In (FScan k sc e) (stk s) /\ s_dyn sc = d) \/ exists x c, In x (env s ++ flat_map frame_env (stk s)) /\ cls s x = Some c /\ c_dyn c = d.
Definition exact_er (f : nat -> option clause) (b : ebase) (l : list nat) : Prop :=
  exists er, er <> [] /\ echain f (EP b false) er /\ NoDup er /\ forall x, In x er <-> In x l /\ live f x = false.
Definition detached (pd : nat -> option nat) (s : st) (d : nat) : Prop :=
  (forall p, pd p <> Some d) /\ forall sc e, In (FScan KRetract sc e) (stk s) -> s_dyn sc <> d.
Definition dbof (f : nat -> option clause) (L : nat -> list nat) (o : option nat) : list entry :=
  match o with None => [] | Some d => map (ent f) (filter (live f) (L d)) end.

(** [pd]: the predicates; [L]: the clauses of each; [LD]: the predicates to be cleaned; [na], [nc]: the numbers of clauses added and of calls *)
Record R (pd : nat -> option nat) (s : st) (L : nat -> list nat) (LD : list nat) (a : ast) (na nc : Z) : Prop := MkR {
  r_dok : forall d D, dyns s d = Some D -> dok scan_ok (cls s) d D (L d);
  r_cnt : forall d D, dyns s d = Some D -> - 1 - na <= count_a D <= -1 /\ 0 <= count_z D <= na /\ 0 <= curr_stamp D <= nc;
  r_own : forall x c, cls s x = Some c -> (x < nextc s)%nat /\ (exists D, dyns s (c_dyn c) = Some D) /\ In x (L (c_dyn c));
  r_ald : forall d D, dyns s d = Some D -> (d < nextd s)%nat;
  r_ld : dlist (dyns s) (fdyn s) LD;
  r_nd : NoDup LD;
  r_in : forall d D, In d LD -> dyns s d = Some D -> e_base (d_erased D) = EAll /\ detached pd s d \/ exact_er (cls s) (e_base (d_erased D)) (L d);
  r_out : forall d D, ~ In d LD -> dyns s d = Some D -> d_erased D = e_null /\ (forall x, In x (L d) -> live (cls s) x = true) \/ is_null (d_erased D) = false;
  r_pd : forall p d, pd p = Some d -> exists D, dyns s d = Some D;
  r_inj : forall p q d, pd p = Some d -> pd q = Some d -> p = q;
  r_env : forall x, In x (env s ++ flat_map frame_env (stk s)) -> cls s x <> None;
  r_fr : Forall2 (frel (cls s) (dyns s) pd L) (stk s) (astk a);
  r_aenv : aenv a = map (ent (cls s)) (env s);
  r_cur : acur a = option_map (ent (cls s)) (cur s) /\ (forall x, cur s = Some x -> cls s x <> None);
  r_db : forall p, db a p = dbof (cls s) L (pd p);
  r_count : count a = nextc s }.

(** [M]: the predicates the collector has still to visit *)
Definition mk (s : st) (LD M : list nat) : Prop :=
  forall d D, In d LD -> dyns s d = Some D -> (~ In d M -> e_mark (d_erased D) = false) /\ (In d M -> e_mark (d_erased D) = false -> ~ refs s d).

(** ** Frames under changes *)
Definition evol1 (n : Z) (f g : nat -> option clause) (x : nat) : Prop :=
  exists c c', f x = Some c /\ g x = Some c' /\ attr c' = attr c /\ (c_stamp c' = c_stamp c \/ c_stamp c = ALIVE /\ n <= c_stamp c').
Definition keepd (f g : nat -> option clause) (dy dy' : nat -> option dynp) (L L' : nat -> list nat) (d : nat) : Prop :=
  forall D, dy d = Some D -> exists D' A B, dy' d = Some D' /\ L' d = A ++ L d ++ B /\ (forall x, In x (L d) -> evol1 (curr_stamp D) f g x) /\
    (forall x, In x B -> count_z D <= no g x) /\ count_z D <= count_z D' /\ curr_stamp D <= curr_stamp D'.
Lemma evol_ent n f g x : evol1 n f g x -> ent g x = ent f x.
Proof. intros [c [c' [A [B [C _]]]]]. unfold ent. rewrite A, B. now rewrite (attr_arg _ _ C), (attr_data _ _ C). Qed.
Lemma evol_no n f g x : evol1 n f g x -> no g x = no f x.
Proof. intros [c [c' [A [B [C _]]]]]. unfold no. rewrite A, B. now rewrite (attr_no _ _ C). Qed.
Lemma evol_key n f g k x : evol1 n f g x -> has_key g k x = has_key f k x.
Proof. intros [c [c' [A [B [C _]]]]]. unfold has_key. rewrite A, B. now rewrite (attr_key _ _ C). Qed.
Lemma evol_vis n f g sc x : evol1 n f g x -> s_stamp sc < n -> s_stamp sc < ALIVE -> vis g sc x <-> vis f sc x.
Proof.
  intros E S1 S2. unfold vis. rewrite (evol_no n f g x E). destruct E as [c [c' [A [B [_ C]]]]]. unfold stamp. rewrite A, B. destruct C as [->|[-> C]]; [reflexivity|]. lia.
Qed.
Lemma scok_keep f g D D' l A B sc kx sx sv rt : scok f D l sc kx sx sv rt -> (forall x, In x l -> evol1 (curr_stamp D) f g x) -> (forall x, In x B -> count_z D <= no g x) ->
  count_z D <= count_z D' -> curr_stamp D <= curr_stamp D' -> exists sx' sv', scok g D' (A ++ l ++ B) sc kx sx' sv' rt.
Proof.
  intros [K [px X] XP [pv V] VP ST [S1 S2] SR IN] EV HB CZ CS.
  assert (Sb : forall k, sub g k (A ++ l ++ B) = sub g k A ++ sub f k l ++ sub g k B).
  { intros k. rewrite !sub_app. f_equal. f_equal. apply sub_ext. intros x Hx. eapply evol_key; eauto. }
  assert (G : forall k p t, sub f k l = p ++ t -> exists t' p', sub g k (A ++ l ++ B) = p' ++ t' /\ nxt t' None = nxt t None /\ (t = [] -> t' = []) /\ forall x, In x t' <-> In x t \/ In x t' /\ In x B).
  { intros k p t E. rewrite Sb, E. destruct t as [|y t].
    - exists [], (sub g k A ++ (p ++ []) ++ sub g k B). split; [now rewrite !app_nil_r|]. split; [reflexivity|]. split; [reflexivity|]. intros x. tauto.
    - exists ((y :: t) ++ sub g k B), (sub g k A ++ p). split; [now rewrite <- !app_assoc|]. split; [reflexivity|]. split; [discriminate|]. intros x. rewrite in_app_iff. split; [|tauto]. intros [H|H]; [now left|]. right. split; [now right|]. now apply sub_in in H. }
  destruct (G kx px sx X) as [sx' [px' [X1 [X2 [X3 X4]]]]]. destruct (G KVar pv sv V) as [sv' [pv' [V1 [V2 [V3 V4]]]]]. exists sx', sv'.
  assert (IL : forall x, In x rt -> In x l). { intros x Hx. apply IN in Hx. destruct Hx as [[Hx|Hx] _]; [apply (sub_in f kx)|apply (sub_in f KVar)]; [rewrite X|rewrite V]; apply in_or_app; now right. }
  constructor; eauto; try lia; try congruence.
  - destruct (s_seq sc); [|exact K]. destruct K as [K1 K2]. split; [exact K1|auto].
  - apply (srt_ext f); [|exact SR]. intros x Hx. symmetry. eapply evol_no; eauto.
  - intros x. split.
    + intros Hx. pose proof (IL x Hx) as Il. apply IN in Hx. destruct Hx as [Hx Vx]. split; [|apply (evol_vis (curr_stamp D) f g); auto]. destruct Hx as [Hx|Hx]; [left; apply X4|right; apply V4]; now left.
    + intros [Hx Vx]. apply IN.
      assert (NB : ~ In x B). { intros H. apply HB in H. unfold vis in Vx. lia. }
      assert (Hx' : In x sx \/ In x sv). { destruct Hx as [Hx|Hx]; [left; apply X4 in Hx|right; apply V4 in Hx]; tauto. }
      split; [exact Hx'|]. apply (evol_vis (curr_stamp D) f g); auto. apply EV. destruct Hx' as [H|H]; [apply (sub_in f kx)|apply (sub_in f KVar)]; [rewrite X|rewrite V]; apply in_or_app; now right.
Qed.
Lemma frel_keep f g dy dy' pd pd' L L' fr af : frel f dy pd L fr af ->
  (forall k sc e, fr = FScan k sc e -> keepd f g dy dy' L L' (s_dyn sc)) -> (forall x, In x (frame_env fr) -> ent g x = ent f x) ->
  (forall k sc e q, fr = FScan k sc e -> pd' q = Some (s_dyn sc) -> pd q = Some (s_dyn sc)) -> frel g dy' pd' L' fr af.
Proof.
  destruct fr as [e|k sc e], af as [e'|p k' l e']; cbn; try tauto.
  - intros -> _ E _. apply map_ext_in. intros x Hx. symmetry. auto.
  - intros [-> [-> [Q [D [c0 [kx [sx [sv [rt [H1 [H2 [H3 [H4 H5]]]]]]]]]]]]] K E P. specialize (K k sc e eq_refl D H1). destruct K as [D' [A [B [K1 [K2 [K3 [K4 [K5 K6]]]]]]]].
    split; [reflexivity|]. split; [apply map_ext_in; intros x Hx; symmetry; auto|]. split; [intros q Hq; apply Q; eapply P; eauto|].
    destruct (scok_keep f g D D' (L (s_dyn sc)) A B sc kx sx sv rt H5 K3 K4 K5 K6) as [sx' [sv' S']]. exists D', c0, kx, sx', sv', rt. rewrite K2. split; [exact K1|]. split; [exact H2|]. split; [rewrite !in_app_iff; tauto|]. split; [|exact S'].
    rewrite H4. change (map (ent f) (c0 :: rt) = map (ent g) (c0 :: rt)). apply map_ext_in. intros x Hx. symmetry. eapply evol_ent. apply K3. destruct Hx as [<-|Hx]; [exact H3|]. apply (o_in _ _ _ _ _ _ _ _ H5) in Hx. destruct Hx as [Hx _]. destruct (o_x _ _ _ _ _ _ _ _ H5) as [px X]. destruct (o_v _ _ _ _ _ _ _ _ H5) as [pv V].
    destruct Hx as [H|H]; [apply (sub_in f kx)|apply (sub_in f KVar)]; [rewrite X|rewrite V]; apply in_or_app; now right.
Qed.
Lemma Forall2_in_l {A B} (P : A -> B -> Prop) l m x : Forall2 P l m -> In x l -> exists y, In y m /\ P x y.
Proof. induction 1; intros []; [subst; eexists; split; [now left|assumption]|]. destruct (IHForall2 H1) as [z [? ?]]. exists z. split; [now right|assumption]. Qed.
Lemma Forall2_impl_in {A B} (P Q : A -> B -> Prop) l m : (forall x y, In x l -> P x y -> Q x y) -> Forall2 P l m -> Forall2 Q l m.
Proof. intros H F. induction F; constructor; [apply H; [now left|assumption]|apply IHF; intros; apply H; [now right|assumption]]. Qed.

(** ** Scans *)
Lemma chk_cell f D k l px x sx : chk scan_ok f D k l -> l = px ++ x :: sx -> exists c, f x = Some c /\ c_next (cell_of k c) = nxt sx None.
Proof.
  unfold chk. intros H ->. destruct (d_hd D k) as [h|]; [|destruct H as [_ H]; now destruct px]. destruct H as [[_ [_ S]] _]. apply seg_app in S. destruct S as [_ [S _]]. unfold cf in S. destruct (f x) as [c|]; [|discriminate]. cbn in S. injection S as S. exists c. split; [reflexivity|]. now rewrite S.
Qed.
Lemma no_inj f l x y : srt f l -> In x l -> In y l -> no f x = no f y -> x = y.
Proof.
  induction l as [|z l IH]; [intros _ []|]. rewrite srt_cons. intros [A B] [<-|Hx] [<-|Hy] E; auto; [apply B in Hy|apply B in Hx]; lia.
Qed.
Lemma key_disj f kx l x : kx <> Seq -> kx <> KVar -> In x (sub f kx l) -> In x (sub f KVar l) -> False.
Proof.
  intros N1 N2 A B. apply sub_key in A; [|exact N1]. apply sub_key in B; [|discriminate]. unfold has_key in *. destruct (f x) as [c|]; [|discriminate]. destruct (c_key c) as [k|]; [|discriminate]. apply chain_eqb_eq in A. apply chain_eqb_eq in B. congruence.
Qed.
Lemma next_ok : forall fuel s d D l sc kx sx sv rt nb, dok scan_ok (cls s) d D l -> scok (cls s) D l sc kx sx sv rt -> count_z D < 2 ^ 31 -> s_clause sc = None -> (length sx + length sv < fuel)%nat ->
  exists sc' n, next_loop fuel s sc nb = Ret (hd_error rt, sc', n) /\ s_dyn sc' = s_dyn sc /\
    match rt with [] => True | x :: rt' => s_clause sc' = Some x /\ In x l /\ exists sx' sv', scok (cls s) D l sc' kx sx' sv' rt' end.
Proof.
  induction fuel as [|fuel IH]; intros s d D l sc kx sx sv rt nb K O Hz Hc Hf; [lia|].
  pose proof O as [OK [px OX] OXP [pv OV] OVP OST [OS1 OS2] OSR OIN]. pose proof K as [KC KS KQ KH]. cbn [next_loop].
  assert (Ix : forall x, In x sx -> In x l) by (intros x H; apply (sub_in (cls s) kx); rewrite OX; apply in_or_app; now right).
  assert (Iv : forall x, In x sv -> In x l) by (intros x H; apply (sub_in (cls s) KVar); rewrite OV; apply in_or_app; now right).
  assert (SX : srt (cls s) sx). { pose proof (srt_sub _ kx _ KS) as H. rewrite OX in H. apply srt_app in H. apply H. }
  assert (SV : srt (cls s) sv). { pose proof (srt_sub _ KVar _ KS) as H. rewrite OV in H. apply srt_app in H. apply H. }
  assert (Bn : forall x, In x l -> no (cls s) x < GREATEST). { intros x H. destruct (KC x H) as [c [A [_ [B _]]]]. unfold no. rewrite A. unfold GREATEST. lia. }
  assert (Alc : forall x, In x l -> exists c, cls s x = Some c /\ no (cls s) x = c_no c /\ stamp (cls s) x = c_stamp c). { intros x H. destruct (KC x H) as [c [A _]]. exists c. unfold no, stamp. now rewrite A. }
  assert (N1 : no_of s (s_xxx sc) = Ret (match sx with [] => GREATEST | x :: _ => no (cls s) x end)).
  { rewrite OXP. destruct sx as [|x sx]; [reflexivity|]. destruct (Alc x (Ix x (or_introl eq_refl))) as [c [A [B _]]]. cbn. unfold getc. rewrite A, B. reflexivity. }
  assert (N2 : no_of s (s_var sc) = Ret (match sv with [] => GREATEST | x :: _ => no (cls s) x end)).
  { rewrite OVP. destruct sv as [|x sv]; [reflexivity|]. destruct (Alc x (Iv x (or_introl eq_refl))) as [c [A [B _]]]. cbn. unfold getc. rewrite A, B. reflexivity. }
  rewrite N1, N2. cbn [bind]. clear N1 N2. set (xn := match sx with [] => GREATEST | x :: _ => no (cls s) x end). set (vn := match sv with [] => GREATEST | x :: _ => no (cls s) x end).
  destruct ((xn <=? vn) && (xn =? GREATEST)) eqn:E0.
  { apply andb_true_iff in E0. destruct E0 as [E1 E2]. apply Z.leb_le in E1. apply Z.eqb_eq in E2.
    assert (sx = []). { destruct sx as [|x sx]; [reflexivity|]. subst xn. specialize (Bn x (Ix x (or_introl eq_refl))). lia. }
    assert (sv = []). { destruct sv as [|x sv]; [reflexivity|]. subst vn. specialize (Bn x (Iv x (or_introl eq_refl))). lia. } subst.
    assert (rt = []). { destruct rt as [|x rt]; [reflexivity|]. destruct (proj1 (OIN x) (or_introl eq_refl)) as [[[]|[]] _]. } subst. exists sc, (longest s). split; [reflexivity|]. split; [reflexivity|exact I]. }
  (* the clause that is looked at *)
  assert (P : exists x c kk sx1 sv1, (if xn <=? vn then s_xxx sc else s_var sc) = Some x /\ cls s x = Some c /\ In x l /\
     (if xn <=? vn then set_scan sc (c_next (if s_seq sc then c_seq c else c_ind c)) (s_var sc) None else set_scan sc (s_xxx sc) (c_next (c_ind c)) None) = set_scan sc (nxt sx1 None) (nxt sv1 None) None /\
     (forall y, In y sx \/ In y sv <-> y = x \/ (In y sx1 \/ In y sv1)) /\ ~ In x sx1 /\ ~ In x sv1 /\ (forall y, In y sx \/ In y sv -> no (cls s) x <= no (cls s) y) /\
     (exists p, sub (cls s) kx l = p ++ sx1) /\ (exists p, sub (cls s) KVar l = p ++ sv1) /\ (length sx1 + length sv1 < fuel)%nat /\ (s_seq sc = true -> sv1 = []) /\ kk = kx).
  { destruct (xn <=? vn) eqn:E1.
    - apply Z.leb_le in E1. cbn in E0. apply Z.eqb_neq in E0. destruct sx as [|x sx]; [now elim E0|]. destruct (chk_cell _ _ _ _ px x sx (KH kx) OX) as [c [A B]].
      exists x, c, kx, sx, sv. split; [exact OXP|]. split; [exact A|]. split; [apply Ix; now left|]. split.
      { unfold set_scan. f_equal; [|exact OVP]. rewrite <- B. destruct (s_seq sc); [destruct OK as [-> _]; reflexivity|]. destruct OK as [OK _]. destruct kx; try reflexivity. now elim OK. }
      split; [intros y; cbn; intuition|]. apply srt_cons in SX. destruct SX as [SX1 SX2]. split; [intros H; apply SX2 in H; lia|]. split.
      { intros H. destruct (s_seq sc); [destruct OK as [_ ->]; destruct H|]. destruct OK as [OK1 OK2]. apply (key_disj (cls s) kx l x OK1 OK2); [rewrite OX; apply in_or_app; right; now left|rewrite OV; apply in_or_app; now right]. }
      split.
      { intros y [[<-|Hy]|Hy]; [lia|apply SX2 in Hy; lia|]. destruct sv as [|z sv]; [destruct Hy|]. subst xn vn. apply srt_cons in SV. destruct Hy as [<-|Hy]; [lia|]. apply SV in Hy. lia. }
      split; [exists (px ++ [x]); rewrite <- app_assoc; exact OX|]. split; [eauto|]. split; [cbn in Hf; lia|]. split; [|reflexivity]. intros E. rewrite E in OK. apply OK.
    - apply Z.leb_gt in E1. destruct sv as [|x sv]. { exfalso. subst xn vn. destruct sx as [|y sx]; [lia|]. specialize (Bn y (Ix y (or_introl eq_refl))). lia. }
      destruct (chk_cell _ _ _ _ pv x sv (KH KVar) OV) as [c [A B]]. assert (Sq : s_seq sc = false) by (destruct (s_seq sc); [destruct OK as [_ OK]; discriminate|reflexivity]). rewrite Sq in OK. destruct OK as [OK1 OK2].
      exists x, c, kx, sx, sv. split; [exact OVP|]. split; [exact A|]. split; [apply Iv; now left|]. split; [unfold set_scan; f_equal; [exact OXP|exact B]|].
      split; [intros y; cbn; intuition|]. apply srt_cons in SV. destruct SV as [SV1 SV2]. split.
      { intros H. apply (key_disj (cls s) kx l x OK1 OK2); [rewrite OX; apply in_or_app; now right|rewrite OV; apply in_or_app; right; now left]. }
      split; [intros H; apply SV2 in H; lia|]. split.
      { intros y [Hy|[<-|Hy]]; [|lia|apply SV2 in Hy; lia]. destruct sx as [|z sx]; [destruct Hy|]. subst xn vn. apply srt_cons in SX. destruct Hy as [<-|Hy]; [lia|]. apply SX in Hy. lia. }
      split; [eauto|]. split; [exists (pv ++ [x]); rewrite <- app_assoc; exact OV|]. split; [cbn in Hf; lia|]. split; [|reflexivity]. rewrite Sq. discriminate. }
  destruct P as [x [c [kk [sx1 [sv1 [E1 [Hx [Il [E2 [M [Nx1 [Nx2 [Mn [PX [PV [Lf [Sq _]]]]]]]]]]]]]]]]]. rewrite E1. unfold getc. rewrite Hx. cbn [bind]. rewrite E2. clear E1 E2.
  destruct (Alc x Il) as [c' [A [An As]]]. rewrite Hx in A. injection A as <-.
  assert (O1 : forall rt', srt (cls s) rt' -> forall cl, (forall y, In y rt' <-> (In y sx1 \/ In y sv1) /\ vis (cls s) sc y) -> scok (cls s) D l (set_scan sc (nxt sx1 None) (nxt sv1 None) cl) kx sx1 sv1 rt').
  { intros rt' S' cl I'. constructor; auto. cbn. destruct (s_seq sc); [|exact OK]. split; [apply OK|auto]. }
  cbn [s_stop set_scan s_stamp]. destruct (s_stop sc <=? c_no c) eqn:E3.
  { apply Z.leb_le in E3. assert (rt = []). { destruct rt as [|y rt]; [reflexivity|]. destruct (proj1 (OIN y) (or_introl eq_refl)) as [Hy [Vy _]]. apply Mn in Hy. lia. } subst. eexists _, _. split; [reflexivity|]. split; [reflexivity|exact I]. }
  apply Z.leb_gt in E3. destruct (c_stamp c <=? s_stamp sc) eqn:E4.
  - apply Z.leb_le in E4. destruct (IH s d D l (set_scan sc (nxt sx1 None) (nxt sv1 None) None) kx sx1 sv1 rt (nb + 1)) as [sc' [n [J1 [J2 J3]]]]; auto.
    + apply O1; [exact OSR|]. intros y. rewrite OIN. rewrite M. split; [|tauto]. intros [[->|H] V]; [|auto]. unfold vis in V. lia.
    + exists sc', n. auto.
  - apply Z.leb_gt in E4. assert (Vx : vis (cls s) sc x) by (unfold vis; lia).
    assert (Hrt : exists rt', rt = x :: rt'). { assert (Hx' : In x rt) by (apply OIN; split; [apply M; now left|exact Vx]). destruct rt as [|y rt]; [destruct Hx'|]. exists rt. f_equal. destruct (proj1 (OIN y) (or_introl eq_refl)) as [Hy _].
      apply (no_inj (cls s) l); auto; [destruct Hy; auto|]. apply Mn in Hy. apply srt_cons in OSR. destruct Hx' as [->|Hx']; [reflexivity|]. apply OSR in Hx'. lia. }
    destruct Hrt as [rt' ->]. eexists _, _. split; [reflexivity|]. split; [reflexivity|]. split; [reflexivity|]. split; [exact Il|]. exists sx1, sv1. apply srt_cons in OSR. destruct OSR as [SR1 SR2].
    cbn [s_xxx s_var set_scan]. apply (O1 rt'); [exact SR1|]. intros y. split.
    + intros Hy. assert (y <> x) by (intros ->; apply SR2 in Hy; lia). destruct (proj1 (OIN y) (or_intror Hy)) as [Hy' V]. apply M in Hy'. split; [|exact V]. tauto.
    + intros [Hy V]. destruct (proj2 (OIN y)) as [->|H]; [split; [apply M; now right|exact V]| |exact H]. tauto.
Qed.
Lemma nodup_len (l : list nat) n : NoDup l -> (forall x, In x l -> (x < n)%nat) -> (length l <= n)%nat.
Proof. intros ND H. rewrite <- (seq_length n 0). apply NoDup_incl_length; [exact ND|]. intros x Hx. apply in_seq. specialize (H x Hx). lia. Qed.
Lemma scan_next_ok s d D l sc kx sx sv rt : dok scan_ok (cls s) d D l -> (forall x, In x l -> (x < nextc s)%nat) -> scok (cls s) D l sc kx sx sv rt -> count_z D < 2 ^ 31 ->
  exists sc' n, Scan_Next s sc = Ret (hd_error rt, sc', with_longest s n) /\ s_dyn sc' = s_dyn sc /\
    match rt with [] => True | x :: rt' => s_clause sc' = Some x /\ In x l /\ exists sx' sv', scok (cls s) D l sc' kx sx' sv' rt' end.
Proof.
  intros K B O Hz. unfold Scan_Next. set (sc0 := set_scan _ _ _ _). pose proof O as [OK OX OXP OV OVP OST OS OSR OIN]. pose proof K as [KC KS _ _].
  assert (Ln : forall k p t, sub (cls s) k l = p ++ t -> (length t <= nextc s)%nat).
  { intros k p t E. apply nodup_len.
    - pose proof (srt_sub _ k _ KS) as H. rewrite E in H. apply srt_app in H. apply (srt_nodup (cls s)), H.
    - intros x Hx. apply B, (sub_in (cls s) k). rewrite E. apply in_or_app. now right. }
  destruct OX as [px OX], OV as [pv OV]. pose proof (Ln _ _ _ OX). pose proof (Ln _ _ _ OV).
  assert (O0 : scok (cls s) D l sc0 kx sx sv rt) by (constructor; eauto).
  destruct (next_ok (S (nextc s + nextc s)) s d D l sc0 kx sx sv rt (-1) K O0 Hz eq_refl) as [sc' [n [E [F G]]]]; [lia|]. rewrite E. cbn [bind]. exists sc', n. split; [reflexivity|]. split; [exact F|exact G].
Qed.
