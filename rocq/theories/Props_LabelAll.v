(** C71: labeling of several variables finds each solution exactly once. *)
Require Import ZArith List Bool Lia Sorting.Sorted.
Require Import Verif.Label_Model Verif.Label_Spec Verif.Label_Proofs Verif.LabelAll_Model Verif.Props_Label.
Import ListNotations.
Open Scope Z_scope.

(** ** What is relied on, and what has to be shown *)
Definition asg : Type := nat -> Z.
Section Spec.
Variable store : Type.
Variable D : store -> nat -> dom.
Variable tell : store -> nat -> (Z -> bool) -> option store.
(** the solutions that a store allows *)
Variable sols : store -> asg -> Prop.
(** Telling a restriction keeps exactly the solutions that satisfy it; it fails only when there is none; domains shrink. *)
Record tell_ok : Prop := {
  t_wf : forall s v, wf (D s v);
  t_dom : forall s g v, sols s g -> In (g v) (D s v);
  t_none : forall s v f, tell s v f = None -> forall g, sols s g -> f (g v) = false;
  t_sols : forall s v f s', tell s v f = Some s' -> forall g, sols s' g <-> sols s g /\ f (g v) = true;
  t_sub : forall s v f s', tell s v f = Some s' -> forall w, incl (D s' w) (D s w);
  t_told : forall s v f s', tell s v f = Some s' -> forall z, In z (D s' v) -> f z = true }.
(** each solution in [P] is in exactly one of the stores, and these have no other *)
Definition parts (P : asg -> Prop) (l : list store) : Prop :=
  (forall s g, In s l -> sols s g -> P g) /\
  forall g, P g -> exists l1 s l2, l = l1 ++ s :: l2 /\ sols s g /\ forall t, In t (l1 ++ l2) -> ~ sols t g.
(** the variables are known *)
Definition known (v : nat) (s : store) : Prop := exists z, D s v = [z].
Definition smaller (s' s : store) : Prop := forall w, incl (D s' w) (D s w).
End Spec.

Section S.
Variable store : Type.
Variable D : store -> nat -> dom.
Variable tell : store -> nat -> (Z -> bool) -> option store.
Variable random : store -> nat -> nat.
Variable sols : store -> asg -> Prop.
Hypothesis TO : tell_ok store D tell sols.
Hypothesis RO : forall s v, (random s v < length (D s v))%nat.
Notation parts := (parts store sols).
Notation known := (known store D).
Notation smaller := (smaller store D).
Notation Ind := (Indomain store D tell random).
Notation Alternative := (Alt store D tell random).
Notation select := (select store D random).

Definition ok (v : nat) (s : store) (P : asg -> Prop) (r : option (list store)) : Prop :=
  exists l, r = Some l /\ parts P l /\ forall t, In t l -> known v t /\ smaller t s.
Lemma parts_nil (P : asg -> Prop) : (forall g, ~ P g) -> parts P [].
Proof. intros N. split; [intros s g []|]. intros g Pg. destruct (N g Pg). Qed.
Lemma parts_one (P : asg -> Prop) s : (forall g, sols s g <-> P g) -> parts P [s].
Proof. intros E. split; [intros t g [<-|[]]; apply E|]. intros g Pg. exists [], s, []. split; [reflexivity|]. split; [apply E, Pg|]. intros t []. Qed.
Lemma parts_app (P1 P2 P : asg -> Prop) l1 l2 : parts P1 l1 -> parts P2 l2 -> (forall g, P g <-> P1 g \/ P2 g) -> (forall g, P1 g -> P2 g -> False) -> parts P (l1 ++ l2).
Proof.
  intros [A1 C1] [A2 C2] U X. split; [intros s g J Q; apply in_app_iff in J as [J|J]; apply U; eauto|]. intros g Pg. apply U in Pg as [Pg|Pg].
  - destruct (C1 g Pg) as (a & s & b & -> & Q & N). exists a, s, (b ++ l2). rewrite <- app_assoc. split; [reflexivity|]. split; [exact Q|].
    intros t J K. rewrite app_assoc in J. apply in_app_iff in J as [J|J]; [exact (N t J K)|]. apply (X g Pg). eauto.
  - destruct (C2 g Pg) as (a & s & b & -> & Q & N). exists (l1 ++ a), s, b. rewrite <- app_assoc. split; [reflexivity|]. split; [exact Q|].
    intros t J K. rewrite <- app_assoc in J. apply in_app_iff in J as [J|J]; [|exact (N t J K)]. apply (X g); eauto.
Qed.
Lemma parts_ext (P Q : asg -> Prop) l : parts P l -> (forall g, P g <-> Q g) -> parts Q l.
Proof. intros [A C] E. split; [intros s g J K; apply E; eauto|]. intros g Qg. apply C, E, Qg. Qed.
Lemma known_len v s : length (D s v) = 1%nat -> known v s.
Proof. destruct (D s v) as [|z [|]] eqn:E; try discriminate. intros _. exists z. exact E. Qed.
Lemma smaller_refl s : smaller s s.
Proof. intros w z J. exact J. Qed.
Lemma smaller_trans s t u : smaller s t -> smaller t u -> smaller s u.
Proof. intros A B w z J. apply B, A, J. Qed.
Lemma dom2 s v : (forall z, D s v <> [z]) -> (2 <= length (D s v))%nat.
Proof. intros N. pose proof (t_wf _ _ _ _ TO s v) as (_ & E & _). destruct (D s v) as [|z [|]]; [congruence|destruct (N z eq_refl)|cbn; lia]. Qed.
Lemma told_ok s v value : ok v s (fun g => sols s g /\ g v = value) (Some (told store tell s v (fun z => z =? value))).
Proof.
  unfold told. destruct (tell s v (fun z => z =? value)) as [s'|] eqn:E.
  - exists [s']. split; [reflexivity|]. split; [apply parts_one; intros g; rewrite (t_sols _ _ _ _ TO _ _ _ _ E g), Z.eqb_eq; reflexivity|].
    intros t [<-|[]]. split; [|exact (t_sub _ _ _ _ TO _ _ _ _ E)].
    pose proof (t_told _ _ _ _ TO _ _ _ _ E) as Q. pose proof (t_wf _ _ _ _ TO s' v) as (S & N & _). destruct (D s' v) as [|a [|b l]] eqn:Ed; [congruence|exists a; exact Ed|].
    exfalso. assert (a = value) by (apply Z.eqb_eq, Q; left; reflexivity). assert (b = value) by (apply Z.eqb_eq, Q; right; left; reflexivity).
    inversion S as [|? ? ? F]; subst. inversion F; subst. lia.
  - exists []. split; [reflexivity|]. split; [|intros t []]. apply parts_nil. intros g [Q1 Q2]. pose proof (t_none _ _ _ _ TO _ _ _ E g Q1) as Q. apply Z.eqb_neq in Q. congruence.
Qed.
Lemma ok_app v s (P1 P2 P : asg -> Prop) r1 r2 : ok v s P1 r1 -> ok v s P2 r2 -> (forall g, P g <-> P1 g \/ P2 g) -> (forall g, P1 g -> P2 g -> False) ->
  ok v s P (match r1, r2 with Some a, Some b => Some (a ++ b) | _, _ => None end).
Proof.
  intros (l1 & -> & A1 & K1) (l2 & -> & A2 & K2) U X. exists (l1 ++ l2). split; [reflexivity|]. split; [apply (parts_app P1 P2); auto|].
  intros t J. apply in_app_iff in J as [J|J]; auto.
Qed.
Lemma ok_sub v s s' (P Q : asg -> Prop) r : ok v s' P r -> smaller s' s -> (forall g, P g <-> Q g) -> ok v s Q r.
Proof.
  intros (l & -> & A & K) Sm E. exists l. split; [reflexivity|]. split; [apply (parts_ext P); auto|]. intros t J. destruct (K t J) as [K1 K2]. split; [exact K1|].
  apply (smaller_trans _ s'); auto.
Qed.
Lemma ok_none v s (P : asg -> Prop) : (forall g, ~ P g) -> ok v s P (Some []).
Proof. intros N. exists []. split; [reflexivity|]. split; [apply parts_nil, N|intros t []]. Qed.
Lemma shorter s v f s' x : tell s v f = Some s' -> In x (D s v) -> f x = false -> (length (D s' v) < length (D s v))%nat.
Proof.
  intros E J Q. apply (shrink _ _ x); [apply (t_wf _ _ _ _ TO)|apply (t_sub _ _ _ _ TO _ _ _ _ E)|exact J|]. intros K. rewrite (t_told _ _ _ _ TO _ _ _ _ E x K) in Q. discriminate.
Qed.
Definition rest (m : Z) (v : nat) (value : Z) (s : store) (g : asg) : Prop := sols s g /\ if m =? METHOD_BISECT then value < g v else g v <> value.
Lemma sel_in m s v : 0 <= m <= 6 -> (2 <= length (D s v))%nat -> In (select m s v) (D s v).
Proof.
  intros V L. unfold LabelAll_Model.select.
  set (rnd := fun E : dom => if list_eq_dec Z.eq_dec E (D s v) then random s v else 0%nat).
  assert (R1 : rnd (D s v) = random s v) by (unfold rnd; destruct (list_eq_dec Z.eq_dec (D s v) (D s v)); congruence).
  assert (R2 : forall E : dom, (rnd E < length E)%nat \/ E = []).
  { intros E. destruct (list_eq_dec Z.eq_dec E (D s v)) as [Q|Q]; [left; rewrite Q, R1; apply RO|].
    destruct E as [|z E]; [right; reflexivity|left]. unfold rnd. destruct (list_eq_dec Z.eq_dec (z :: E) (D s v)); [contradiction|cbn; lia]. }
  assert (Q : Select_Value (fun _ => random s v) m (D s v) = Select_Value rnd m (D s v)) by (unfold Select_Value; rewrite R1; reflexivity).
  rewrite Q. destruct (select_in rnd R2 m (D s v) V (t_wf _ _ _ _ TO s v)) as [J|J]; [exact J|lia].
Qed.
Theorem indomain_all fuel : (forall m v s, 0 <= m <= 6 -> (2 * length (D s v) <= fuel)%nat -> ok v s (sols s) (Ind fuel m v s)) /\
  (forall m v value s, 0 <= m <= 6 -> In value (D s v) -> (2 * length (D s v) - 1 <= fuel)%nat -> ok v s (rest m v value s) (Alternative fuel m v value s)).
Proof.
  induction fuel as [|fuel [IH1 IH2]].
  { split; [intros m v s V F|intros m v value s V J F]; pose proof (t_wf _ _ _ _ TO s v) as (_ & N & _); destruct (D s v); cbn in F; congruence || lia. }
  assert (BD : forall s g v, sols s g -> 0 <= g v <= 2 ^ 28 - 1).
  { intros s g v Q. apply (t_wf _ _ _ _ TO s v). apply (t_dom _ _ _ _ TO), Q. }
  split.
  - intros m v s V F. cbn [Indomain].
    assert (Main : (forall z, D s v <> [z]) -> ok v s (sols s)
      (match (if m =? METHOD_BISECT then match tell s v (fun z => (0 <=? z) && (z <=? select m s v)) with None => Some [] | Some s' => Ind fuel m v s' end
              else Some (told store tell s v (fun z => z =? select m s v))), Alternative fuel m v (select m s v) s with Some a, Some b => Some (a ++ b) | _, _ => None end)).
    { intros N. pose proof (dom2 s v N) as L2. pose proof (sel_in m s v V L2) as J. set (value := select m s v) in *.
      apply (ok_app v s (fun g => sols s g /\ if m =? METHOD_BISECT then g v <= value else g v = value) (rest m v value s)).
      - destruct (m =? METHOD_BISECT) eqn:E; [|apply told_ok]. apply Z.eqb_eq in E. subst m.
        destruct (tell s v (fun z => (0 <=? z) && (z <=? value))) as [s'|] eqn:Et.
        + destruct (select_bisect (fun _ => random s v) (D s v) (t_wf _ _ _ _ TO s v) L2) as (x & Jx & Lx). change (value < x) in Lx.
          assert (Lt : (length (D s' v) < length (D s v))%nat).
          { apply (shorter s v _ s' x Et Jx). apply andb_false_iff. right. apply Z.leb_gt, Lx. }
          apply (ok_sub v s s' (sols s')); [apply IH1; [exact V|lia]|exact (t_sub _ _ _ _ TO _ _ _ _ Et)|].
          intros g. rewrite (t_sols _ _ _ _ TO _ _ _ _ Et g), andb_true_iff, !Z.leb_le. split; [tauto|]. intros [Q1 Q2]. specialize (BD s g v Q1). tauto.
        + apply ok_none. intros g [Q1 Q2]. pose proof (t_none _ _ _ _ TO _ _ _ Et g Q1) as Q. specialize (BD s g v Q1). apply andb_false_iff in Q as [Q|Q]; apply Z.leb_gt in Q; lia.
      - apply IH2; [exact V|exact J|lia].
      - intros g. unfold rest. destruct (m =? METHOD_BISECT).
        + destruct (Z_le_gt_dec (g v) value); [|assert (value < g v) by lia]; intuition lia.
        + destruct (Z.eq_dec (g v) value); tauto.
      - intros g. unfold rest. destruct (m =? METHOD_BISECT); intros [_ Q1] [_ Q2]; [lia|congruence]. }
    destruct (D s v) as [|z [|z' l]] eqn:Ed.
    + pose proof (t_wf _ _ _ _ TO s v) as (_ & N & _). congruence.
    + exists [s]. split; [reflexivity|]. split; [apply parts_one; intros g; reflexivity|]. intros t [<-|[]]. split; [exists z; exact Ed|apply smaller_refl].
    + apply Main. intros y. discriminate.
  - intros m v value s V J F. cbn [Alt]. destruct (m =? METHOD_BISECT) eqn:E.
    + destruct (tell s v (fun z => (value + 1 <=? z) && (z <=? INTERVAL_MAX_INTEGER))) as [s'|] eqn:Et.
      * assert (Lt : (length (D s' v) < length (D s v))%nat).
        { apply (shorter s v _ s' value Et J). apply andb_false_iff. left. apply Z.leb_gt. lia. }
        apply (ok_sub v s s' (sols s')); [apply IH1; [exact V|lia]|exact (t_sub _ _ _ _ TO _ _ _ _ Et)|].
        intros g. unfold rest. rewrite E, (t_sols _ _ _ _ TO _ _ _ _ Et g), andb_true_iff, !Z.leb_le. unfold INTERVAL_MAX_INTEGER. split.
        -- intros [Q1 Q2]. split; [exact Q1|lia].
        -- intros [Q1 Q2]. specialize (BD s g v Q1). split; [exact Q1|lia].
      * apply ok_none. intros g. unfold rest. rewrite E. intros [Q1 Q2]. pose proof (t_none _ _ _ _ TO _ _ _ Et g Q1) as Q. specialize (BD s g v Q1). unfold INTERVAL_MAX_INTEGER in Q.
        apply andb_false_iff in Q as [Q|Q]; apply Z.leb_gt in Q; lia.
    + set (m' := if m =? METHOD_LIMITS_MIN then METHOD_LIMITS_MAX else if m =? METHOD_LIMITS_MAX then METHOD_LIMITS_MIN else m).
      assert (V' : 0 <= m' <= 6 /\ m' =? METHOD_BISECT = false).
      { unfold m'. destruct (m =? METHOD_LIMITS_MIN); [split; [unfold METHOD_LIMITS_MAX; lia|reflexivity]|].
        destruct (m =? METHOD_LIMITS_MAX); [split; [unfold METHOD_LIMITS_MIN; lia|reflexivity]|auto]. }
      destruct V' as [V' E']. cbv zeta.
      destruct (tell s v (fun z => negb (z =? value))) as [s'|] eqn:Et.
      * assert (Lt : (length (D s' v) < length (D s v))%nat).
        { apply (shorter s v _ s' value Et J). rewrite Z.eqb_refl. reflexivity. }
        assert (Eq : forall g, sols s' g <-> rest m v value s g).
        { intros g. unfold rest. rewrite E, (t_sols _ _ _ _ TO _ _ _ _ Et g), negb_true_iff, Z.eqb_neq. reflexivity. }
        apply (ok_sub v s s' (sols s')); [|exact (t_sub _ _ _ _ TO _ _ _ _ Et)|exact Eq].
        assert (Main : (forall z, D s' v <> [z]) -> ok v s' (sols s')
          (match Some (told store tell s' v (fun z => z =? select m' s' v)), Alternative fuel m' v (select m' s' v) s' with Some a, Some b => Some (a ++ b) | _, _ => None end)).
        { intros N. pose proof (dom2 s' v N) as L2. pose proof (sel_in m' s' v V' L2) as J2. set (v2 := select m' s' v) in *.
          apply (ok_app v s' (fun g => sols s' g /\ g v = v2) (rest m' v v2 s') (sols s') (Some (told store tell s' v (fun z => z =? v2))) (Alternative fuel m' v v2 s')); [apply told_ok|apply IH2; [exact V'|exact J2|lia]| |].
          - intros g. unfold rest. rewrite E'. destruct (Z.eq_dec (g v) v2); tauto.
          - intros g. unfold rest. rewrite E'. intros [_ Q1] [_ Q2]. congruence. }
        destruct (D s' v) as [|z [|z' l]] eqn:Ed.
        -- pose proof (t_wf _ _ _ _ TO s' v) as (_ & N & _). congruence.
        -- exists [s']. split; [reflexivity|]. split; [apply parts_one; intros g; reflexivity|]. intros t [<-|[]]. split; [exists z; exact Ed|apply smaller_refl].
        -- apply Main. intros y. discriminate.
      * apply ok_none. intros g. unfold rest. rewrite E. intros [Q1 Q2]. pose proof (t_none _ _ _ _ TO _ _ _ Et g Q1) as Q. apply negb_false_iff, Z.eqb_eq in Q. congruence.
Qed.
Lemma known_smaller v s t : known v s -> smaller t s -> known v t.
Proof.
  intros (z & E) Sm. specialize (Sm v). rewrite E in Sm. pose proof (t_wf _ _ _ _ TO t v) as (S & N & _). destruct (D t v) as [|a [|b l]] eqn:Ed; [congruence|exists a; exact Ed|].
  exfalso. inversion S as [|? ? ? F]; subst. inversion F; subst. destruct (Sm a (or_introl eq_refl)) as [<-|[]]. destruct (Sm b (or_intror (or_introl eq_refl))) as [<-|[]]. lia.
Qed.
Lemma each_ok f : forall l P (K : store -> Prop), parts P l ->
  (forall s, In s l -> exists r, f s = Some r /\ parts (sols s) r /\ forall t, In t r -> K t) ->
  exists r, each store f l = Some r /\ parts P r /\ forall t, In t r -> K t.
Proof.
  induction l as [|s l IH]; intros P K [A C] H.
  - exists []. split; [reflexivity|]. split; [|intros t []]. apply parts_nil. intros g Pg. destruct (C g Pg) as ([|] & ? & ? & Q & _); discriminate Q.
  - destruct (H s (or_introl eq_refl)) as (r1 & E1 & P1 & K1).
    destruct (IH (fun g => P g /\ ~ sols s g) K) as (r2 & E2 & P2 & K2).
    { assert (C' : forall g, P g -> (sols s g /\ (forall t, In t l -> ~ sols t g)) \/ (~ sols s g /\ exists l1 t l2, l = l1 ++ t :: l2 /\ sols t g /\ forall u, In u (l1 ++ l2) -> ~ sols u g)).
      { intros g Pg. destruct (C g Pg) as (l1 & t & l2 & E & Q & N). destruct l1 as [|x l1]; cbn in E; injection E as -> ->.
        - left. split; [exact Q|]. intros u J. apply N. exact J.
        - right. split; [apply N; left; reflexivity|]. exists l1, t, l2. split; [reflexivity|]. split; [exact Q|]. intros u J. apply N. right. exact J. }
      split.
      - intros t g J Q. split; [apply (A t); [right; exact J|exact Q]|]. intros Qs. destruct (C' g (A s g (or_introl eq_refl) Qs)) as [[_ N]|[N _]]; [exact (N t J Q)|exact (N Qs)].
      - intros g [Pg Ns]. destruct (C' g Pg) as [[Q _]|[_ R]]; [destruct (Ns Q)|exact R]. }
    { intros t J. apply H. right. exact J. }
    exists (r1 ++ r2). cbn [each]. rewrite E1, E2. split; [reflexivity|]. split.
    + apply (parts_app (sols s) (fun g => P g /\ ~ sols s g)); auto.
      * intros g. split; [|intros [Q|[Q _]]; [apply (A s); [left; reflexivity|exact Q]|exact Q]]. intros Pg.
        destruct (C g Pg) as (l1 & t & l2 & E & Q & N). destruct l1 as [|x l1]; cbn in E; injection E as -> ->; [left; exact Q|right; split; [exact Pg|apply N; left; reflexivity]].
      * intros g Q [_ N]. exact (N Q).
    + intros t J. apply in_app_iff in J as [J|J]; auto.
Qed.
(** ** C71_labeling: the answers share out the solutions of the store: each solution is in exactly one answer, no answer has another,
    and the variables are known in it *)
Theorem C71_labeling : forall m vs s fuel, 0 <= m <= 6 -> (forall v, In v vs -> (2 * length (D s v) <= fuel)%nat) ->
  exists l, labeling_std store D tell random fuel m vs s = Some l /\ parts (sols s) l /\ forall t, In t l -> smaller t s /\ forall v, In v vs -> known v t.
Proof.
  intros m vs. induction vs as [|v vs IH]; intros s fuel V F.
  - exists [s]. split; [reflexivity|]. split; [apply parts_one; intros g; reflexivity|]. intros t [<-|[]]. split; [apply smaller_refl|]. intros v [].
  - cbn [labeling_std]. destruct (proj1 (indomain_all fuel) m v s V (F v (or_introl eq_refl))) as (l & -> & Pl & Kl).
    apply each_ok; [exact Pl|]. intros t J. destruct (Kl t J) as [Kt St].
    destruct (IH t fuel V) as (r & E & Pr & Kr).
    { intros w Jw. assert (length (D t w) <= length (D s w))%nat by (apply NoDup_incl_length; [apply wf_nodup, (t_wf _ _ _ _ TO)|apply St]). specialize (F w (or_intror Jw)). lia. }
    exists r. split; [exact E|]. split; [exact Pr|]. intros u Ju. destruct (Kr u Ju) as [Su Ku]. split; [apply (smaller_trans _ t); auto|].
    intros w [<-|Jw]; [apply (known_smaller v t); auto|auto].
Qed.
(** ** C71_labeling_mth: the same for the methods that choose the variable, whatever they choose among the variables that are not known *)
Section Mth.
Variable pick : store -> list nat -> option (list nat * nat).
Hypothesis PK : forall s a, match pick s a with
  | None => forall v, In v a -> known v s
  | Some (a', v) => In v a /\ ~ known v s /\ forall w, ~ known w s -> w <> v -> (In w a' <-> In w a) end.
Definition unk (s : store) (v : nat) : bool := negb (Nat.eqb (length (D s v)) 1).
Lemma unk_known s v : unk s v = true <-> ~ known v s.
Proof.
  unfold unk. rewrite negb_true_iff, Nat.eqb_neq. split; [intros N (z & E); rewrite E in N; apply N; reflexivity|]. intros N E. apply N, known_len, E.
Qed.
Lemma known_dec s v : known v s \/ ~ known v s.
Proof. destruct (unk s v) eqn:E; [right; apply unk_known, E|left]. destruct (Nat.eqb (length (D s v)) 1) eqn:Q; [apply known_len, Nat.eqb_eq, Q|]. unfold unk in E. rewrite Q in E. discriminate. Qed.
Lemma fewer s t : smaller t s -> forall vs, (length (filter (unk t) vs) <= length (filter (unk s) vs))%nat.
Proof.
  intros Sm vs. induction vs as [|w vs IH]; [cbn; lia|]. cbn [filter]. destruct (unk t w) eqn:Et, (unk s w) eqn:Es; cbn [length]; try lia.
  exfalso. apply unk_known in Et. apply Et. apply (known_smaller w s); [|exact Sm]. destruct (known_dec s w) as [K|K]; [exact K|]. apply unk_known in K. congruence.
Qed.
Lemma fewer_lt s t v : smaller t s -> unk s v = true -> unk t v = false -> forall vs, In v vs -> (length (filter (unk t) vs) < length (filter (unk s) vs))%nat.
Proof.
  intros Sm Us Ut vs. induction vs as [|w vs IH]; [intros []|]. cbn [filter]. intros [->|J].
  - rewrite Us, Ut. pose proof (fewer s t Sm vs). cbn [length]. lia.
  - specialize (IH J). pose proof (fewer s t Sm [w]) as Q. cbn [filter] in Q. destruct (unk t w), (unk s w); cbn [length] in *; lia.
Qed.
Lemma mth_ok vs : forall n m a s fuel, 0 <= m <= 6 -> (forall v, In v vs -> (2 * length (D s v) <= fuel)%nat) ->
  (forall w, ~ known w s -> (In w a <-> In w vs)) -> (length (filter (unk s) vs) <= n)%nat ->
  exists l, labeling_mth store D tell random pick n fuel m a s = Some l /\ parts (sols s) l /\ forall t, In t l -> smaller t s /\ forall v, In v vs -> known v t.
Proof.
  induction n as [|n IH]; intros m a s fuel V F I C; cbn [labeling_mth]; pose proof (PK s a) as Q; destruct (pick s a) as [[a' v]|].
  - exfalso. destruct Q as (J & N & _). apply I in J; [|exact N]. apply unk_known in N.
    assert (X : In v (filter (unk s) vs)) by (apply filter_In; auto). destruct (filter (unk s) vs); [destruct X|cbn in C; lia].
  - exists [s]. split; [reflexivity|]. split; [apply parts_one; intros g; reflexivity|]. intros t [<-|[]]. split; [apply smaller_refl|].
    intros v J. destruct (known_dec s v) as [K|K]; [exact K|]. apply Q, I; auto.
  - destruct Q as (J & N & E). assert (Jv : In v vs) by (apply I; auto).
    destruct (proj1 (indomain_all fuel) m v s V (F v Jv)) as (l & -> & Pl & Kl). apply each_ok; [exact Pl|]. intros t Jt. destruct (Kl t Jt) as [Kt St].
    destruct (IH m a' t fuel V) as (r & Er & Pr & Kr).
    + intros w Jw. assert (length (D t w) <= length (D s w))%nat by (apply NoDup_incl_length; [apply wf_nodup, (t_wf _ _ _ _ TO)|apply St]). specialize (F w Jw). lia.
    + intros w Nw. assert (Ns : ~ known w s) by (intros K; apply Nw, (known_smaller w s); auto). rewrite (E w Ns) by (intros ->; exact (Nw Kt)). apply I, Ns.
    + assert (Lt : (length (filter (unk t) vs) < length (filter (unk s) vs))%nat); [|lia].
      apply (fewer_lt s t v); auto; [apply unk_known, N|]. destruct (unk t v) eqn:U; [apply unk_known in U; destruct (U Kt)|reflexivity].
    + exists r. split; [exact Er|]. split; [exact Pr|]. intros u Ju. destruct (Kr u Ju) as [Su Ku]. split; [apply (smaller_trans _ t); auto|exact Ku].
  - exists [s]. split; [reflexivity|]. split; [apply parts_one; intros g; reflexivity|]. intros t [<-|[]]. split; [apply smaller_refl|].
    intros v J. destruct (known_dec s v) as [K|K]; [exact K|]. apply Q, I; auto.
Qed.
End Mth.
(** with Pick_Var of Label_Model, thus also when the array is packed and not the best variable is chosen *)
Theorem C71_labeling_mth : forall (vars : store -> nat -> info) cmp reorder, strict cmp -> (forall s v, ground (vars s v) = true <-> known v s) ->
  forall m vs s fuel, 0 <= m <= 6 -> (forall v, In v vs -> (2 * length (D s v) <= fuel)%nat) ->
  exists l, labeling_mth store D tell random (fun s => Pick_Var (vars s) cmp reorder) (length vs) fuel m vs s = Some l /\
    parts (sols s) l /\ forall t, In t l -> smaller t s /\ forall v, In v vs -> known v t.
Proof.
  intros vars cmp reorder ST GK m vs s fuel V F. apply (mth_ok _); auto.
  - intros s' a. pose proof (C71_pick (vars s') cmp ST reorder a) as Q. destruct (Pick_Var (vars s') cmp reorder a) as [[a' v]|].
    + destruct Q as (J & G & E). split; [exact J|]. split; [intros K; apply GK in K; congruence|]. intros w N _. apply E. destruct (ground (vars s' w)) eqn:G'; [apply GK in G'; destruct (N G')|reflexivity].
    + intros v J. apply GK, Q, J.
  - intros w _. reflexivity.
  - assert (X : forall (f : nat -> bool) l, (length (filter f l) <= length l)%nat) by (intros f l; induction l as [|x l IHl]; cbn; [lia|destruct (f x); cbn; lia]). apply X.
Qed.
(** with the random choice of Label_Model; the cells behind the array are left out *)
Theorem C71_labeling_random : forall (vars : store -> nat -> info) rnd, (forall n, (0 < n)%nat -> (rnd n < n)%nat) -> (forall s v, ground (vars s v) = true <-> known v s) ->
  forall m vs s fuel, 0 <= m <= 6 -> (forall v, In v vs -> (2 * length (D s v) <= fuel)%nat) ->
  exists l, labeling_mth store D tell random
      (fun s a => match Random_Pick (vars s) rnd (length a) a with Some (a', n, v) => Some (firstn n a', v) | None => None end) (length vs) fuel m vs s = Some l /\
    parts (sols s) l /\ forall t, In t l -> smaller t s /\ forall v, In v vs -> known v t.
Proof.
  intros vars rnd RD GK m vs s fuel V F. apply (mth_ok _); auto.
  - assert (AI : forall n (a : list nat) v, (n <= length a)%nat -> (among n a v <-> In v (firstn n a))).
    { intros n a v L. unfold among. split.
      - intros (i & Li & Ei). assert (Q : nth i (firstn n a) 0%nat = v).
        { rewrite <- Ei. rewrite <- (firstn_skipn n a) at 2. rewrite app_nth1; [reflexivity|rewrite firstn_length; lia]. }
        rewrite <- Q. apply nth_In. rewrite firstn_length. lia.
      - intros J. apply (In_nth _ _ 0%nat) in J as (i & Li & Ei). rewrite firstn_length in Li. exists i. split; [lia|].
        rewrite <- Ei. rewrite <- (firstn_skipn n a) at 1. rewrite app_nth1; [reflexivity|rewrite firstn_length; lia]. }
    intros s' a. pose proof (C71_random (vars s') rnd RD (length a) a (le_n _)) as Q. destruct (Random_Pick (vars s') rnd (length a) a) as [[[a' n] v]|].
    + destruct Q as (Ln & J & G & La & _ & _ & E). rewrite AI, firstn_all in J by lia. split; [exact J|]. split; [intros K; apply GK in K; congruence|].
      intros w N Nv. assert (G' : ground (vars s' w) = false) by (destruct (ground (vars s' w)) eqn:G'; [apply GK in G'; destruct (N G')|reflexivity]).
      specialize (E w G'). rewrite !AI, firstn_all in E by lia. tauto.
    + intros v J. apply GK, Q. apply AI; [lia|]. rewrite firstn_all. exact J.
  - intros w _. reflexivity.
  - assert (X : forall (f : nat -> bool) l, (length (filter f l) <= length l)%nat) by (intros f l; induction l as [|x l IHl]; cbn; [lia|destruct (f x); cbn; lia]). apply X.
Qed.
End S.
Print Assumptions C71_labeling_random.
Print Assumptions C71_labeling.
Print Assumptions C71_labeling_mth.

(** ** The hypotheses can be met: X and Y in 0..1 with X <> Y.  The store is free, or one of the two solutions. *)
Inductive st := Free | A | B.
Definition vA (v : nat) : Z := match v with 1%nat => 1 | _ => 0 end.
Definition vB (v : nat) : Z := match v with 0%nat => 1 | _ => 0 end.
Definition stD (s : st) (v : nat) : dom := match s with A => [vA v] | B => [vB v] | Free => match v with 0%nat | 1%nat => [0; 1] | _ => [0] end end.
Definition st_tell (s : st) (v : nat) (f : Z -> bool) : option st :=
  match s, f (vA v), f (vB v) with
  | Free, true, true => Some Free | (Free | A), true, _ => Some A | (Free | B), _, true => Some B | _, _, _ => None end.
Definition st_sols (s : st) (g : asg) : Prop :=
  match s with A => forall v, g v = vA v | B => forall v, g v = vB v | Free => (forall v, g v = vA v) \/ (forall v, g v = vB v) end.
Example ex_tell_ok : tell_ok st stD st_tell st_sols.
Proof.
  split.
  - intros s v. unfold wf. split; [|split].
    + destruct s, v as [|[|v]]; cbn; repeat constructor.
    + destruct s, v as [|[|v]]; discriminate.
    + intros z J. destruct s, v as [|[|v]]; cbn in J; intuition (subst; lia).
  - intros s g v Q. destruct s; cbn in Q; [destruct Q as [Q|Q]| |]; rewrite Q; destruct v as [|[|v]]; cbn; auto.
  - intros s v f E g Q. destruct s; cbn in *; [destruct Q as [Q|Q]| |]; rewrite Q; destruct (f (vA v)), (f (vB v)); congruence.
  - intros s v f s' E g. destruct s; cbn in E; destruct (f (vA v)) eqn:Ea, (f (vB v)) eqn:Eb; try discriminate E; injection E as <-; cbn; split;
      try (intros Q; split; [tauto|]; try destruct Q as [Q|Q]; rewrite Q; assumption); intros [Q R]; try destruct Q as [Q|Q]; auto; rewrite Q in R; congruence.
  - intros s v f s' E w z J. destruct s; cbn in E; destruct (f (vA v)), (f (vB v)); try discriminate E; injection E as <-; try exact J;
      destruct w as [|[|w]]; cbn in *; intuition.
  - intros s v f s' E z J. destruct s; cbn in E; destruct (f (vA v)) eqn:Ea, (f (vB v)) eqn:Eb; try discriminate E; injection E as <-; cbn in J;
      destruct v as [|[|v]]; cbn in *; intuition (subst; assumption).
Qed.
Example ex_labeling : labeling_std st stD st_tell (fun _ _ => 0%nat) 4 METHOD_MIN [0; 1]%nat Free = Some [A; B] /\
  labeling_std st stD st_tell (fun _ _ => 0%nat) 4 METHOD_MAX [0; 1]%nat Free = Some [B; A].
Proof. split; reflexivity. Qed.
(** the last variable first: X = 0 in the answer A is found after Y = 0 in B *)
Definition ex_pick (s : st) (a : list nat) : option (list nat * nat) :=
  match filter (fun v => match stD s v with [_] => false | _ => true end) (rev a) with v :: _ => Some (a, v) | [] => None end.
Example ex_labeling_mth : labeling_mth st stD st_tell (fun _ _ => 0%nat) ex_pick 2 4 METHOD_MIN [0; 1]%nat Free = Some [B; A].
Proof. reflexivity. Qed.
