(** C37: the answers of bagof/3 and setof/3 once the solutions are sorted *)
Require Import ZArith List Bool Lia Sorted Permutation.
Require Import Verif.Term_Model Verif.Term_Proofs Verif.Heap_Model Verif.Heap_Proofs Verif.Unify_Model Verif.Unify_Spec Verif.Mem_Example.
Require Import Verif.Order_Spec Verif.Order_Proofs Verif.Sort_Model Verif.Sort_Proofs Verif.Props_Order.
Require Import Verif.Copy_Spec Verif.Copy_Proofs2 Verif.Bagof_Model Verif.Bagof_Spec Verif.Bagof_Proofs.
Import ListNotations.
Open Scope Z_scope.

(** an answer (memory, key word, list word) shows a key and a list of values *)
Definition shows (nil : Z) (a : mem * word * word) (g : term * list term) : Prop :=
  den (fst (fst a)) (snd (fst a)) (fst g) /\ den (fst (fst a)) (snd a) (list_term nil (snd g)).

(** Group never runs into undefined behaviour: it takes the first pairs with the same key,
    turns their cells into the list of the values, and gives the rest back unchanged *)
Theorem C37_group :
  forall name nil minus, (forall i j, name i = name j -> i = j) ->
  forall o m all c cs s l, sub o m -> derefs m all (LST c) -> separate o (c :: cs) ->
  pairs m o nil minus (c :: cs) (s :: l) -> Forall (fun s => nan_free (kt s)) (s :: l) ->
  exists l1 l2 cs1 cs2 F m' key, l = l1 ++ l2 /\ cs = cs1 ++ cs2 /\
  Forall (fun s' => same_term (kt s) (kt s')) l1 /\ match l2 with [] => True | s' :: _ => ~ same_term (kt s) (kt s') end /\
  (forall fuel, (F <= fuel)%nat -> Group name nil fuel m all =
     Ret (m', key, match cs2 with [] => None | c' :: _ => Some (LST c') end)) /\
  den m' key (kt s) /\ den m' (LST c) (list_term nil (map vt (s :: l1))) /\ pairs m' o nil minus cs2 l2 /\
  (forall x, Forall (fun c' => x <> c' /\ x <> c' + 1) (c :: cs1) -> m' x = m x).
Proof.
  intros name nil minus inj o m all c cs s l Sb Da Sp Pa Nf.
  destruct (Group_ok name nil minus inj o m all c cs s l Sb Da Sp Pa Nf) as (l1 & l2 & cs1 & cs2 & F & m' & key & E1 & E2 & Ln & A & B & C & D & E & G & H).
  assert (Sb' : sub o m').
  { intros x d Ex. rewrite H; [exact (Sb x d Ex)|]. subst cs. change (c :: cs1 ++ cs2) with ((c :: cs1) ++ cs2) in Sp.
    exact (off_none o c cs1 x d (proj1 (separate_app _ _ _ Sp)) Ex). }
  exists l1, l2, cs1, cs2, F, m', key. repeat (split; [assumption|]).
  split; [exact (proj1 (den_sub_both _ _ Sb') _ _ D)|]. split; [exact (vals_den m' o nil Sb' cs1 _ c E)|]. split; [exact G|exact H].
Qed.

(** whatever happens between the answers, they are the groups of consecutive pairs with the
    same key *)
Theorem C37_answers :
  forall name nil minus, (forall i j, name i = name j -> i = j) ->
  forall o m all c cs s ss l, sub o m -> derefs o all (LST c) -> separate o (c :: cs) ->
  pairs m o nil minus (c :: cs) (s :: ss) -> Forall (fun s => nan_free (kt s)) (s :: ss) ->
  answers name nil m all l -> exists gs, groups (s :: ss) gs /\ Forall2 (shows nil) l gs.
Proof.
  intros name nil minus inj o m all c cs s ss l Sb Da Sp Pa Nf A.
  destruct (answers_ok name nil minus inj m all l A o c cs s ss Sb Da Sp Pa Nf) as (gs & G & F). exists gs. split; [exact G|].
  clear - F. induction F as [|[[m' k] w] g l gs H _ IH]; constructor; auto.
Qed.

Lemma filter_map {A B} (f : B -> bool) (h : A -> B) l : filter f (map h l) = map h (filter (fun x => f (h x)) l).
Proof. induction l as [|x l IH]; cbn; auto. destruct (f (h x)); cbn; now rewrite IH. Qed.
Lemma map_inj {A B} (h : A -> B) : (forall x y, h x = h y -> x = y) -> forall l r, map h l = map h r -> l = r.
Proof. intros I. induction l as [|x l IH]; intros [|y r] E; try discriminate; auto. injection E as E1 E2. f_equal; auto. Qed.
Lemma filter_ext_in' {A} (f g : A -> bool) l : (forall x, In x l -> f x = g x) -> filter f l = filter g l.
Proof. intros H. induction l as [|x l IH]; cbn; auto. rewrite (H x (or_introl eq_refl)), IH; auto. intros y I. apply H. now right. Qed.
Lemma sorted_map {A B} (R : B -> B -> Prop) (h : A -> B) l : StronglySorted R (map h l) <-> StronglySorted (fun x y => R (h x) (h y)) l.
Proof.
  induction l as [|x l IH]; cbn; split; intros S; try constructor; inversion S as [|? ? S1 S2]; subst.
  - now apply IH.
  - rewrite Forall_forall in *. intros y I. apply S2. now apply in_map.
  - now apply IH.
  - rewrite Forall_forall in *. intros y I. apply in_map_iff in I. destruct I as (z & <- & I). auto.
Qed.

(** bagof/3: the keys of the answers increase, each answer is the list of the values of all the
    solutions with this key in the order they were found, none is empty, and every solution is in one
    of them.  [found]: the addresses of the pairs Key-Value in the order they were found *)
Theorem C37_bagof :
  forall name nil minus, (forall i j, name i = name j -> i = j) ->
  forall o m all c cs (K V : addr -> term) found sorted cmp d l,
  (forall a, In a found -> pair_at o minus (Sol a (K a) (V a)) /\ nan_free (K a)) ->
  (forall a b, In a found -> In b found -> exists fuel, Keysort_Cmp name fuel o (STC a) (STC b) = Ret (cmp (STC a) (STC b))) ->
  map STC sorted = Sort_List word cmp 2 d (map STC found) ->
  sub o m -> derefs o all (LST c) -> separate o (c :: cs) ->
  pairs m o nil minus (c :: cs) (map (fun a => Sol a (K a) (V a)) sorted) ->
  answers name nil m all l ->
  exists gs, Forall2 (shows nil) l gs /\
  ForallOrdPairs (fun g g' => term_lt name (fst g) (fst g')) gs /\
  (forall g, In g gs -> snd g <> [] /\
     forall f, (forall a, In a found -> f a = true <-> same_term (fst g) (K a)) -> snd g = map V (filter f found)) /\
  (forall a, In a found -> exists g, In g gs /\ same_term (fst g) (K a)).
Proof.
  intros name nil minus inj o m all c cs K V found sorted cmp d l Fd Cm So Sb Da Sp Pa An.
  set (mk := fun a => Sol a (K a) (V a)) in *.
  set (key := fun w => match w with STC a => K a | _ => TInt 0 end).
  destruct (C08_keysort name inj o minus key cmp (map STC found) d) as (Pe & Ss & Fi).
  { intros w I. apply in_map_iff in I. destruct I as (a & <- & I). destruct (Fd a I) as ((P1 & kw & vw & P2 & P3 & _) & N).
    exists a, kw. cbn [key pw kt] in *. repeat (split; [auto|]). exact N. }
  { intros u v Iu Iv. apply in_map_iff in Iu, Iv. destruct Iu as (a & <- & Ia), Iv as (b & <- & Ib). auto. }
  rewrite <- So in Pe, Ss, Fi.
  assert (Is : forall a, In a sorted <-> In a found).
  { intros a. split; intros I.
    - assert (X : In (STC a) (map STC found)) by (apply (Permutation_in _ Pe), in_map, I). apply in_map_iff in X. destruct X as (b & E & X). congruence.
    - assert (X : In (STC a) (map STC sorted)) by (apply (Permutation_in _ (Permutation_sym Pe)), in_map, I). apply in_map_iff in X. destruct X as (b & E & X). congruence. }
  assert (Nf : Forall (fun s => nan_free (kt s)) (map mk sorted)).
  { rewrite Forall_forall. intros s I. apply in_map_iff in I. destruct I as (a & <- & I). apply Is in I. apply (Fd a I). }
  destruct sorted as [|a0 sorted]; [destruct Pa|].
  destruct (C37_answers name nil minus inj o m all c cs (mk a0) (map mk sorted) l Sb Da Sp Pa Nf An) as (gs & G & Sh).
  change (mk a0 :: map mk sorted) with (map mk (a0 :: sorted)) in G. set (srt := a0 :: sorted) in *.
  exists gs. split; [exact Sh|].
  destruct (groups_sorted name inj _ gs G) as (G1 & G2 & G3); [|exact Nf|].
  { rewrite sorted_map in Ss. apply sorted_map. exact Ss. }
  split; [exact G1|]. split.
  - intros g I. destruct (G2 g I) as (Ne & Fg). split; [exact Ne|]. intros f Hf.
    rewrite (Fg (fun s => f (pw s))).
    2:{ intros s Is'. apply in_map_iff in Is'. destruct Is' as (a & <- & Ia). cbn [pw kt mk]. apply Hf. now apply Is. }
    rewrite filter_map, map_map. cbn [vt pw mk].
    destruct (groups_keys _ _ G g I) as (s & Is' & Eg). apply in_map_iff in Is'. destruct Is' as (b & <- & Ib). cbn [kt mk] in Eg.
    assert (Ibf : In b found) by now apply Is.
    assert (Ef : forall a, In a found -> f a = (cmp (STC b) (STC a) =? 0)).
    { intros a Ia. destruct (Cm b a Ibf Ia) as (fuel & Q). destruct (Fd b Ibf) as ((_ & kb & _ & Kb & Db & _) & Nb), (Fd a Ia) as ((_ & ka & _ & Ka & Dka & _) & Na).
      cbn [pw kt] in *. unfold Keysort_Cmp, rd_word in Q. rewrite Kb, Ka in Q. cbn [bind] in Q.
      pose proof (Term_Compare_det name fuel o kb ka _ _ _ Db Dka Q) as Et.
      destruct (Z.eqb_spec (cmp (STC b) (STC a)) 0) as [E|E].
      - apply Hf; auto. rewrite <- Eg. apply (tcmp_same name inj); auto. congruence.
      - destruct (f a) eqn:Fa; auto. exfalso. apply E. rewrite Et. apply (tcmp_same name inj); auto. rewrite Eg. now apply Hf. }
    f_equal. apply (map_inj STC); [congruence|]. specialize (Fi (STC b) ltac:(now apply in_map)).
    rewrite !filter_map in Fi.
    rewrite (filter_ext_in' f (fun x => cmp (STC b) (STC x) =? 0) found) by exact Ef.
    rewrite <- Fi. f_equal. apply filter_ext_in'. intros a Ia. apply Ef. now apply Is.
  - intros a Ia. apply Is in Ia. destruct (G3 (mk a) (in_map mk _ _ Ia)) as (g & I & S). exists g. auto.
Qed.

Lemma strcmp_refl_lt s : ~ str_lt s s.
Proof. rewrite <- strcmp_lt, strcmp_refl. lia. Qed.
Lemma lt_pair name minus k v k' v' : term_lt name (TCmp minus [k; v]) (TCmp minus [k'; v']) ->
  term_lt name k k' \/ (same_term k k' /\ term_lt name v v').
Proof.
  intros L. inversion L; subst; cbn in *; try lia.
  - exfalso. eapply strcmp_refl_lt. eassumption.
  - match goal with X : Forall2 _ ?a ?b |- _ => destruct X as [|x y us1 vs1 S1 S2] end; cbn in *.
    + match goal with A : _ :: _ = _, B : _ :: _ = _ |- _ => injection A as -> ->; injection B as -> -> end. auto.
    + destruct S2 as [|? ? ? ? S2 S3]; cbn in *.
      * match goal with A : _ :: _ = _, B : _ :: _ = _ |- _ => injection A as -> -> ->; injection B as -> -> -> end. auto.
      * match goal with A : _ :: _ :: _ ++ _ = _ |- _ => injection A as _ _ A; destruct (app_cons_not_nil _ _ _ (eq_sym A)) end.
Qed.

(** setof/3: as bagof/3, with the values sorted without repetitions *)
Theorem C37_setof :
  forall name nil minus, (forall i j, name i = name j -> i = j) ->
  forall o m all c cs (K V : addr -> term) found sorted cmp d l,
  (forall a, In a found -> pair_at o minus (Sol a (K a) (V a)) /\ nan_free (K a) /\ nan_free (V a)) ->
  (forall a b, In a found -> In b found -> exists fuel, Term_Compare name fuel o (STC a) (STC b) = Ret (cmp (STC a) (STC b))) ->
  map STC sorted = Sort_List word cmp 0 d (map STC found) ->
  sub o m -> derefs o all (LST c) -> separate o (c :: cs) ->
  pairs m o nil minus (c :: cs) (map (fun a => Sol a (K a) (V a)) sorted) ->
  answers name nil m all l ->
  exists gs, Forall2 (shows nil) l gs /\
  ForallOrdPairs (fun g g' => term_lt name (fst g) (fst g')) gs /\
  (forall g, In g gs -> snd g <> [] /\ StronglySorted (term_lt name) (snd g) /\
     forall v, In v (snd g) -> exists a, In a found /\ same_term (fst g) (K a) /\ v = V a) /\
  (forall a, In a found -> exists g v, In g gs /\ same_term (fst g) (K a) /\ In v (snd g) /\ same_term v (V a)).
Proof.
  intros name nil minus inj o m all c cs K V found sorted cmp d l Fd Cm So Sb Da Sp Pa An.
  set (mk := fun a => Sol a (K a) (V a)) in *.
  set (tm := fun w => match w with STC a => TCmp minus [K a; V a] | _ => TInt 0 end).
  destruct (C08_sort name inj o tm cmp (map STC found) d) as (Pe & Ss & Fi & _).
  { intros w I. apply in_map_iff in I. destruct I as (a & <- & I). destruct (Fd a I) as ((P1 & kw & vw & P2 & P3 & P4 & P5) & N1 & N2).
    cbn [tm pw kt vt] in *. split.
    - apply den_stc; [exact P1|]. apply dena_cons with (w := kw); auto. apply dena_cons with (w := vw); auto; [|constructor].
      now replace (a + 1 + 1) with (a + 2) by lia.
    - cbn. auto. }
  { intros u v Iu Iv. apply in_map_iff in Iu, Iv. destruct Iu as (a & <- & Ia), Iv as (b & <- & Ib). auto. }
  rewrite <- So in Pe, Ss, Fi.
  assert (Is : forall a, In a sorted -> In a found).
  { intros a I. specialize (Pe (STC a) (in_map STC _ _ I)). apply in_map_iff in Pe. destruct Pe as (b & E & X). congruence. }
  assert (Nf : Forall (fun s => nan_free (kt s)) (map mk sorted)).
  { rewrite Forall_forall. intros s I. apply in_map_iff in I. destruct I as (a & <- & I). apply Is in I. apply (Fd a I). }
  assert (Ls : StronglySorted (fun a b => term_lt name (TCmp minus [K a; V a]) (TCmp minus [K b; V b])) sorted).
  { rewrite sorted_map in Ss. exact Ss. }
  assert (Lk : StronglySorted (le_key name) (map mk sorted)).
  { apply sorted_map. clear - Ls Is Fd inj. induction Ls as [|a l Ls IH Fa]; constructor.
    - apply IH. intros b I. apply Is. now right.
    - rewrite Forall_forall in *. intros b I. unfold le_key. cbn [kt mk]. intros X.
      destruct (Fd a (Is a (or_introl eq_refl))) as (_ & Na & _), (Fd b (Is b (or_intror I))) as (_ & Nb & _).
      destruct (lt_pair _ _ _ _ _ _ (Fa b I)) as [Y|[Y _]].
      + apply (term_lt_irrefl name inj (K a) (K a) Na Na (same_refl _)). exact (term_lt_trans name inj _ _ _ Na Nb Na Y X).
      + exact (term_lt_irrefl name inj _ _ Nb Na (same_sym _ _ Y) X). }
  destruct sorted as [|a0 sorted]; [destruct Pa|].
  destruct (C37_answers name nil minus inj o m all c cs (mk a0) (map mk sorted) l Sb Da Sp Pa Nf An) as (gs & G & Sh).
  change (mk a0 :: map mk sorted) with (map mk (a0 :: sorted)) in G. set (srt := a0 :: sorted) in *.
  exists gs. split; [exact Sh|].
  destruct (groups_sorted name inj _ gs G Lk Nf) as (G1 & G2 & G3).
  split; [exact G1|].
  assert (Fil : forall g, In g gs -> exists f, (forall a, In a srt -> f a = true <-> same_term (fst g) (K a)) /\ snd g = map V (filter f srt)).
  { intros g I. destruct (groups_keys _ _ G g I) as (s & Is' & Eg). apply in_map_iff in Is'. destruct Is' as (b & <- & Ib). cbn [kt mk] in Eg.
    set (f := fun a => tcmp name (K b) (K a) =? 0).
    assert (Hf : forall a, In a srt -> f a = true <-> same_term (fst g) (K a)).
    { intros a Ia. unfold f. rewrite Z.eqb_eq, <- Eg. apply (tcmp_same name inj); apply Fd, Is; auto. }
    exists f. split; [exact Hf|]. destruct (G2 g I) as (_ & Fg). rewrite (Fg (fun s => f (pw s))).
    - rewrite filter_map, map_map. reflexivity.
    - intros s Is'. apply in_map_iff in Is'. destruct Is' as (a & <- & Ia). exact (Hf a Ia). }
  split.
  - intros g I. destruct (G2 g I) as (Ne & _). split; [exact Ne|]. destruct (Fil g I) as (f & Hf & ->). split.
    + apply sorted_map. assert (Hs : forall a, In a srt -> In a found /\ (f a = true <-> same_term (fst g) (K a))) by (intros; split; auto).
      clear - Ls Hs Fd inj. induction Ls as [|a l Ls IH Fa]; cbn [filter]; [constructor|].
      assert (IH' := IH (fun b I => Hs b (or_intror I))). destruct (f a) eqn:E; [|exact IH']. constructor; [exact IH'|].
      rewrite Forall_forall in *. intros b I. apply filter_In in I. destruct I as (I & Eb).
      destruct (Hs a (or_introl eq_refl)) as (Ia & Ha), (Hs b (or_intror I)) as (Ib & Hb). apply Ha in E. apply Hb in Eb.
      destruct (lt_pair _ _ _ _ _ _ (Fa b I)) as [Y|[_ Y]]; [|exact Y]. exfalso.
      apply (term_lt_irrefl name inj (K a) (K b)); try apply Fd; auto. exact (same_trans _ _ _ (same_sym _ _ E) Eb).
    + intros v Iv. apply in_map_iff in Iv. destruct Iv as (a & <- & Ia). apply filter_In in Ia. destruct Ia as (Ia & Ea).
      exists a. split; [auto|]. split; [now apply Hf|reflexivity].
  - intros a Ia. destruct (Fi (STC a) (in_map STC _ _ Ia)) as (w' & Iw & Sw). apply in_map_iff in Iw. destruct Iw as (b & <- & Ib).
    cbn [tm] in Sw. inversion Sw as [| | | | |? ? ? F2]; subst. inversion F2 as [|? ? ? ? S1 F3]; subst. inversion F3 as [|? ? ? ? S2 _]; subst.
    destruct (G3 (mk b) (in_map mk _ _ Ib)) as (g & I & S). cbn [kt mk] in S. destruct (Fil g I) as (f & Hf & E).
    exists g, (V b). split; [exact I|]. split; [exact (same_trans _ _ _ S (same_sym _ _ S1))|]. split; [|exact (same_sym _ _ S2)].
    rewrite E. apply in_map. apply filter_In. split; [exact Ib|]. now apply Hf.
Qed.

(** ** Example: the solutions 3-a, 2-b, 3-c *)
Lemma mem_of_app l1 l2 x : mem_of (l1 ++ l2) x = match mem_of l1 x with Some c => Some c | None => mem_of l2 x end.
Proof.
  unfold mem_of. induction l1 as [|p l1 IH]; cbn [app find]; [reflexivity|].
  destruct p as [a c]. cbn [fst]. destruct (a =? x); [reflexivity|exact IH].
Qed.
Definition b_terms : list (addr * cell) :=
  [(1, Word (LST 20)); (2, Func 45 2); (3, Word (INT 3)); (4, Word (ATM 97)); (5, Func 45 2); (6, Word (INT 2)); (7, Word (ATM 98));
   (8, Func 45 2); (9, Word (INT 3)); (10, Word (ATM 99)); (11, Word (STC 2))].
Definition b_list : list (addr * cell) :=
  [(20, Word (STC 5)); (21, Word (LST 24)); (24, Word (REF 11)); (25, Word (LST 22)); (22, Word (STC 8)); (23, Word (ATM 91))].
Definition b_o := mem_of b_terms.
Definition b_m := mem_of (b_terms ++ b_list).
Definition b_K (a : addr) : term := if a =? 5 then TInt 2 else TInt 3.
Definition b_V (a : addr) : term := if a =? 2 then TAtm 97 else if a =? 5 then TAtm 98 else TAtm 99.
Definition b_kcmp (u v : word) : Z := match Keysort_Cmp ex_name 9 b_o u v with Ret x => x | _ => 0 end.
Definition b_cmp (u v : word) : Z := match Term_Compare ex_name 9 b_o u v with Ret x => x | _ => 0 end.
Definition b_mem (m : mem) (w : word) : mem := match Group ex_name 91 9 m w with Ret (m', _, _) => m' | _ => m end.
Example C37_bagof_ex :
  (forall a, In a [2; 5; 8] -> pair_at b_o 45 (Sol a (b_K a) (b_V a)) /\ nan_free (b_K a) /\ nan_free (b_V a)) /\
  (forall a b, In a [2; 5; 8] -> In b [2; 5; 8] -> Keysort_Cmp ex_name 9 b_o (STC a) (STC b) = Ret (b_kcmp (STC a) (STC b))) /\
  (forall a b, In a [2; 5; 8] -> In b [2; 5; 8] -> Term_Compare ex_name 9 b_o (STC a) (STC b) = Ret (b_cmp (STC a) (STC b))) /\
  map STC [5; 2; 8] = Sort_List word b_kcmp 2 (INT 0) (map STC [2; 5; 8]) /\
  map STC [5; 2; 8] = Sort_List word b_cmp 0 (INT 0) (map STC [2; 5; 8]) /\
  sub b_o b_m /\ derefs b_o (REF 1) (LST 20) /\ separate b_o [20; 24; 22] /\
  pairs b_m b_o 91 45 [20; 24; 22] (map (fun a => Sol a (b_K a) (b_V a)) [5; 2; 8]) /\
  answers ex_name 91 b_m (REF 1) [(b_mem b_m (REF 1), INT 2, REF 1); (b_mem (b_mem b_m (REF 1)) (LST 24), INT 3, LST 24)] /\
  den (b_mem b_m (REF 1)) (REF 1) (list_term 91 [TAtm 98]) /\
  den (b_mem (b_mem b_m (REF 1)) (LST 24)) (LST 24) (list_term 91 [TAtm 97; TAtm 99]).
Proof.
  split; [|split; [|split; [|split; [|split; [|split; [|split; [|split; [|split; [|split; [|split]]]]]]]]]].
  - intros a Ia. destruct Ia as [<-|[<-|[<-|[]]]]; (split; [|split; exact I]); (split; [reflexivity|]);
      [exists (INT 3), (ATM 97)|exists (INT 2), (ATM 98)|exists (INT 3), (ATM 99)];
      (split; [reflexivity|]); (split; [constructor|]); (split; [reflexivity|]); constructor.
  - intros a b I J. destruct I as [<-|[<-|[<-|[]]]], J as [<-|[<-|[<-|[]]]]; reflexivity.
  - intros a b I J. destruct I as [<-|[<-|[<-|[]]]], J as [<-|[<-|[<-|[]]]]; reflexivity.
  - vm_compute. reflexivity.
  - vm_compute. reflexivity.
  - intros x d E. unfold b_m. rewrite mem_of_app. unfold b_o in E. now rewrite E.
  - apply (deref_derefs 9). reflexivity.
  - cbn [separate]. repeat split; try reflexivity; repeat constructor; lia.
  - cbn [pairs map]. unfold pair_at. cbn [pw kt vt b_K b_V Z.eqb Pos.eqb].
    repeat split; try reflexivity; eexists.
    + split; [reflexivity|]. apply (deref_derefs 9). reflexivity.
    + eexists. repeat split; try reflexivity; constructor.
    + split; [reflexivity|]. apply (deref_derefs 9). reflexivity.
    + eexists. repeat split; try reflexivity; constructor.
    + split; [reflexivity|]. apply (deref_derefs 9). reflexivity.
    + eexists. repeat split; try reflexivity; constructor.
  - apply ans_more with (fuel := 9%nat) (rest := LST 24) (m2 := b_mem b_m (REF 1)); [reflexivity|intros x _; reflexivity|].
    apply ans_last with (fuel := 9%nat). reflexivity.
  - apply (term_of_den _ 10). vm_compute. reflexivity.
  - apply (term_of_den _ 10). vm_compute. reflexivity.
Qed.

Print Assumptions C37_group.
Print Assumptions C37_answers.
Print Assumptions C37_bagof.
Print Assumptions C37_setof.
Print Assumptions C37_bagof_ex.
