(** Dynamic predicates (C17 - C20). *)
Require Import ZArith List Bool Lia Arith.
Require Import Verif.Heap_Model Verif.Dyn_Model Verif.Dyn_Spec Verif.Dyn_Chain Verif.Dyn_Inv Verif.Dyn_Add Verif.Dyn_Rel Verif.Dyn_Sim.
Import ListNotations.
Open Scope Z_scope.

(** ** C17: the logical update view *)
(** Every answer of every history is that of the database in which a goal keeps the list of the clauses that it
    found when it was called (Dyn_Spec.astep): for every threshold of the reclamation. *)
Theorem C17_refines MC MS ops : allowed astart ops -> asserts ops < 2 ^ 31 -> calls ops < 2 ^ 64 - 1 ->
  exists s, steps MC MS start ops = Ret (fst (asteps astart ops), s).
Proof.
  intros Al Ba Bc. destruct (steps_ok MC MS ops start astart 0 0 start_inv Al) as [s [E _]]; try lia. now exists s.
Qed.

(** The number of frames never falls below [h], and the frame number [h] is not resumed. *)
Fixpoint quiet (h : nat) (s : ast) (l : list op) : Prop :=
  match l with
  | [] => length (astk s) = h
  | o :: l => match o with Redo _ => (h < length (astk s))%nat | Cut n => (h + n <= length (astk s))%nat | _ => True end /\ quiet h (snd (astep s o)) l
  end.
(** What happens between a goal and its successive solutions. *)
Fixpoint history (mids : list (list op * bool)) : list op := match mids with [] => [] | (m, u) :: t => m ++ Redo u :: history t end.
Fixpoint quiets (h : nat) (s : ast) (mids : list (list op * bool)) : Prop :=
  match mids with [] => True | (m, u) :: t => quiet h s m /\ quiets h (snd (astep (snd (asteps s m)) (Redo u))) t end.
Fixpoint picked {A} (mids : list (list op * bool)) (o : list A) : list A :=
  match mids with [] => [] | (m, u) :: t => match skipn (length m) o with x :: o => x :: picked t o | [] => [] end end.

Lemma asteps_app l : forall s m, asteps s (l ++ m) = (fst (asteps s l) ++ fst (asteps (snd (asteps s l)) m), snd (asteps (snd (asteps s l)) m)).
Proof. induction l as [|o l IH]; intros s m; cbn [app asteps fst snd]; [now destruct (asteps s m)|]. now rewrite IH. Qed.
Lemma asteps_len l : forall s, length (fst (asteps s l)) = length l.
Proof. induction l as [|o l IH]; intros s; cbn; [reflexivity|]. now rewrite IH. Qed.
Lemma afound_stk s p x k u : astk (afound s p x k u) = astk s.
Proof. destruct k; cbn; [reflexivity| |reflexivity]. now destruct u. Qed.
Lemma quiet_step fr r s o X : astk s = X ++ fr :: r -> (exists p k l e, fr = AScan p k l e) ->
  match o with Redo _ => (S (length r) < length (astk s))%nat | Cut n => (S (length r) + n <= length (astk s))%nat | _ => True end ->
  exists X', astk (snd (astep s o)) = X' ++ fr :: r.
Proof.
  intros E Hf Q. destruct o as [p front ar data file|p ar k u|u| | |n| | | |p]; cbn [astep].
  - exists X. exact E.
  - cbn [db]. destruct (filter _ _) as [|x [|y l]]; cbn [snd]; [exists X; exact E| |]; rewrite afound_stk; cbn [astk]; [exists X; exact E|]. eexists (_ :: X). cbn. now rewrite E.
  - cbn [astk]. rewrite E in Q |- *. destruct X as [|y X]; [cbn in Q; lia|]. cbn [app]. destruct y as [e|p k [|x l] e]; try (exists (AOther e :: X); reflexivity); [exists (AScan p k [] e :: X); reflexivity|].
    cbn [snd]. rewrite afound_stk. cbn [astk]. destruct l as [|z l]; [now exists X|]. now exists (AScan p k (z :: l) e :: X).
  - cbn. rewrite E. now exists (AOther (aenv s) :: X).
  - cbn [astk]. rewrite E. destruct X as [|y X]; cbn [app]; [destruct Hf as [p [k [l [e ->]]]]; exists []; reflexivity|]. destruct y as [e|p k l e]; [now exists X|]. exists (AScan p k l e :: X). reflexivity.
  - cbn. rewrite E in Q |- *. exists (skipn n X). rewrite skipn_app. replace (n - length X)%nat with 0%nat; [reflexivity|]. rewrite app_length in Q. cbn in Q. lia.
  - exists X. destruct (acur s); exact E.
  - exists X. exact E.
  - exists X. cbn. destruct (aenv s); exact E.
  - exists X. exact E.
Qed.
Lemma quiet_keeps fr r : (exists p k l e, fr = AScan p k l e) -> forall m s X, astk s = X ++ fr :: r -> quiet (S (length r)) s m -> astk (snd (asteps s m)) = fr :: r.
Proof.
  intros Hf. induction m as [|o m IH]; intros s X E Q.
  - cbn in Q |- *. rewrite E, app_length in Q. cbn in Q. destruct X; [exact E|cbn in Q; lia].
  - destruct Q as [Q1 Q2]. destruct (quiet_step fr r s o X E Hf Q1) as [X' E']. exact (IH _ X' E' Q2).
Qed.
Lemma redos p k e r : forall mids l s, astk s = AScan p k l e :: r -> (length mids <= length l)%nat -> quiets (S (length r)) s mids ->
  picked mids (fst (asteps s (history mids))) = map (fun x => Some (shown x)) (firstn (length mids) l).
Proof.
  induction mids as [|[m u] t IH]; intros l s E Hl Q; [reflexivity|]. destruct Q as [Q1 Q2]. cbn [history picked length] in *. rewrite asteps_app. cbn [fst].
  rewrite skipn_app, skipn_all2, asteps_len, Nat.sub_diag by (rewrite asteps_len; lia). cbn [app skipn].
  assert (Et : astk (snd (asteps s m)) = AScan p k l e :: r) by (apply (quiet_keeps _ _ ltac:(eauto) m s []); auto).
  destruct l as [|x l]; [cbn in Hl; lia|]. cbn [asteps fst firstn map].
  set (s1 := snd (asteps s m)) in *. assert (E1 : astep s1 (Redo u) = (Some (shown x), afound (Ast (db s1) (count s1) (match l with [] => r | _ => AScan p k l e :: r end) e None) p x k u)) by (cbn; now rewrite Et).
  rewrite E1 in *. cbn [fst snd] in *. f_equal. destruct l as [|y l]; [destruct t; [reflexivity|cbn in Hl; lia]|]. apply (IH (y :: l)); [now rewrite afound_stk|cbn in *; lia|exact Q2].
Qed.
(** A goal gets, at its call and each time it is resumed, the clauses that were there at its call, in order,
    whatever has been done in the meantime. *)
Theorem C17_snapshot MC MS pre p ar k u mids :
  let ops := pre ++ Call p ar k u :: history mids in
  let s0 := snd (asteps astart pre) in
  let l := filter (given ar) (db s0 p) in
  allowed astart ops -> asserts ops < 2 ^ 31 -> calls ops < 2 ^ 64 - 1 ->
  quiets (S (length (astk s0))) (snd (astep s0 (Call p ar k u))) mids -> (length mids < length l)%nat ->
  exists o0 o s, steps MC MS start ops = Ret (o0 ++ o, s) /\ length o0 = length pre /\
    picked (([], true) :: mids) o = map (fun x => Some (shown x)) (firstn (S (length mids)) l).
Proof.
  intros ops s0 l Al Ba Bc Q Hl. destruct (C17_refines MC MS ops Al Ba Bc) as [s E]. unfold ops in E. rewrite asteps_app in E. fold s0 in E. cbn [fst] in E. do 2 eexists. exists s. split; [exact E|]. split; [apply asteps_len|].
  cbn [picked length skipn asteps fst]. set (r := astep s0 (Call p ar k u)) in *. cbn [astep db] in r. fold l in r. clearbody l. destruct l as [|x l]; [cbn in Hl; lia|]. cbn [firstn map]. unfold r in *. clear r. cbn [fst snd] in *. f_equal.
  destruct l as [|y l]; [destruct mids; [reflexivity|cbn in Hl; lia]|]. apply (redos p k (aenv s0) (astk s0)); [now rewrite afound_stk|cbn in *; lia|exact Q].
Qed.
(** Two nested calls; in between the clauses are erased, others added, the predicate is erased as a whole. *)
Example C17_ex :
  let ops := [Assert 0 false (AInt 1) 10 0; Assert 0 false (AInt 2) 20 0; Assert 0 true (AInt 0) 5 0;
    Call 0 AVar KClause true; Assert 0 false (AInt 3) 30 0; Call 0 AVar KRetract true; Redo true; Assert 0 true (AInt 9) 90 0; Redo true; Redo true;
    Erase_Pred 0; Assert 0 false (AInt 7) 70 0; Redo true; Call 0 AVar KClause true; Redo true] in
  allowed astart ops /\ asserts ops < 2 ^ 31 /\ calls ops < 2 ^ 64 - 1 /\
  match steps 1 1 start ops with
  | Ret (o, _) => o = [None; None; None; Some (AInt 0, 5%nat); None; Some (AInt 0, 5%nat); Some (AInt 1, 10%nat); None; Some (AInt 2, 20%nat); Some (AInt 3, 30%nat);
      None; None; Some (AInt 1, 10%nat); Some (AInt 7, 70%nat); Some (AInt 2, 20%nat)]
  | _ => False
  end.
Proof. vm_compute. repeat split. intros k l e [H|[]]. injection H as <- _ _. discriminate. Qed.
Example C17_snapshot_ex :
  let pre := [Assert 0 false (AInt 1) 10 0; Assert 0 false (AInt 2) 20 0; Assert 0 false (AInt 3) 30 0] in
  let mids := [([Assert 0 true (AInt 9) 90 0; Call 0 (AInt 2) KRetract true], true); ([Other; Call 0 AVar KRetract true; Redo true; Cut 2], false)] in
  let s0 := snd (asteps astart pre) in
  let ops := pre ++ Call 0 AVar KClause true :: history mids in
  allowed astart ops /\ asserts ops < 2 ^ 31 /\ calls ops < 2 ^ 64 - 1 /\ quiets (S (length (astk s0))) (snd (astep s0 (Call 0 AVar KClause true))) mids /\
  (length mids < length (filter (given AVar) (db s0 0%nat)))%nat /\
  map shown (filter (given AVar) (db s0 0%nat)) = [(AInt 1, 10%nat); (AInt 2, 20%nat); (AInt 3, 30%nat)].
Proof. vm_compute. repeat split; auto 20; try lia. Qed.

(** ** C19: the list of clauses *)
(** Histories of asserta/1, assertz/1 and once(retract/1); [true] is asserta. *)
Inductive hop := HAssert (p : nat) (front : bool) (a : arg) (data : nat) | HRetract (p : nat) (a : arg).
Definition ops_of (h : hop) : list op := match h with HAssert p front a data => [Assert p front a data 0] | HRetract p a => [Call p a KRetract true; Cut 1] end.
Fixpoint remove_first {A} (f : A -> bool) (l : list A) : list A := match l with [] => [] | x :: l => if f x then l else x :: remove_first f l end.
(** Only the kind and the value of the first argument are compared: the rest is taken to unify. *)
Definition match1 (a b : arg) : bool :=
  match a, b with
  | AVar, _ | _, AVar | AArity0, AArity0 | ALst, ALst => true
  | AInt m, AInt n | AAtm m, AAtm n | AFlt m, AFlt n | AStc m, AStc n => m =? n
  | _, _ => false
  end.
Fixpoint replay (f : nat -> list (arg * nat)) (l : list hop) : nat -> list (arg * nat) :=
  match l with
  | [] => f
  | HAssert p front a data :: l => replay (fun q => if Nat.eqb q p then if front then (a, data) :: f p else f p ++ [(a, data)] else f q) l
  | HRetract p a :: l => replay (fun q => if Nat.eqb q p then remove_first (fun x => match1 a (fst x)) (f p) else f q) l
  end.
(** A first argument is absent exactly in the predicates of arity 0 ([z]); a retract with a float tries every
    clause, and is left out here. *)
Definition retr_ok (z : nat -> bool) (h : hop) : Prop :=
  match h with
  | HRetract _ (AFlt _) => False
  | HRetract p AArity0 | HAssert p _ AArity0 _ => z p = true
  | HRetract p _ | HAssert p _ _ _ => z p = false
  end.
Definition any_arg (z : nat -> bool) (p : nat) : arg := if z p then AArity0 else AVar.
Definition answers (l : list (arg * nat)) : list (option (arg * nat)) := match l with [] => [None] | _ => map Some l end.
Definition enumerate (p : nat) (a : arg) (n : nat) : list op := Call p a KClause true :: repeat (Redo true) (n - 1).
Lemma redos_plain p e r l : forall s, astk s = AScan p KClause l e :: r -> fst (asteps s (repeat (Redo true) (length l))) = map (fun x => Some (shown x)) l.
Proof.
  induction l as [|x l IH]; intros s E; [reflexivity|]. cbn [length repeat asteps fst map]. assert (E1 : astep s (Redo true) = (Some (shown x), Ast (db s) (count s) (match l with [] => r | _ => AScan p KClause l e :: r end) e None)) by (cbn; now rewrite E).
  rewrite E1. cbn [fst snd]. f_equal. destruct l as [|y l]; [reflexivity|]. apply IH. reflexivity.
Qed.
Lemma enumerate_ok s p a : let l := map shown (filter (given a) (db s p)) in fst (asteps s (enumerate p a (length l))) = answers l.
Proof.
  intros l. unfold l. rewrite map_length. unfold enumerate. cbn [asteps fst snd astep db]. destruct (filter (given a) (db s p)) as [|x l0]; [reflexivity|]. cbn [fst snd length answers map]. f_equal. rewrite Nat.sub_succ, Nat.sub_0_r. destruct l0 as [|y l0]; [reflexivity|].
  change (afound ?s _ _ KClause _) with s. rewrite (redos_plain p (aenv s) (astk s) (y :: l0)) by reflexivity. now rewrite map_map.
Qed.
Definition same (z : nat -> bool) (s : ast) (f : nat -> list (arg * nat)) : Prop :=
  astk s = [] /\ (forall p, map shown (db s p) = f p) /\ (forall p q x y, In x (db s p) -> In y (db s q) -> eid x = eid y -> p = q) /\ (forall p, NoDup (map eid (db s p))) /\
  (forall p x, In x (db s p) -> (eid x < count s)%nat /\ (earg x = AArity0 <-> z p = true)).
Lemma given_match z p a x : retr_ok z (HRetract p a) -> (earg x = AArity0 <-> z p = true) -> given a x = match1 a (earg x).
Proof. unfold given, match1, retr_ok. destruct a, (earg x); intros A B; try reflexivity; try contradiction; exfalso; destruct B as [B1 B2]; try (rewrite B1 in A by reflexivity); try (specialize (B2 A)); discriminate. Qed.
Lemma without_notin' i l : ~ In i (map eid l) -> without i l = l.
Proof.
  unfold without. intros N. induction l as [|x l IH]; [reflexivity|]. cbn in *. destruct (Nat.eqb (eid x) i) eqn:E; [apply Nat.eqb_eq in E; elim N; auto|]. cbn. f_equal. apply IH. tauto.
Qed.
Lemma remove_first_without g l x r : NoDup (map eid l) -> filter g l = x :: r -> without (eid x) l = remove_first g l.
Proof.
  induction l as [|y l IH]; [discriminate|]. cbn [map]. intros Nd E. inversion Nd as [|? ? Nd1 Nd2]; subst. cbn [filter remove_first] in *. destruct (g y).
  - injection E as <- <-. unfold without. cbn [filter]. rewrite Nat.eqb_refl. cbn [negb]. exact (without_notin' _ _ Nd1).
  - assert (I : In x l). { assert (H : In x (filter g l)) by (rewrite E; now left). apply filter_In in H. tauto. }
    unfold without. cbn [filter]. assert (N : Nat.eqb (eid y) (eid x) = false). { apply Nat.eqb_neq. intros H. apply Nd1. rewrite H. now apply in_map. }
    rewrite N. cbn [negb]. f_equal. exact (IH Nd2 E).
Qed.
Lemma remove_first_nil {A} (g : A -> bool) l : filter g l = [] -> remove_first g l = l.
Proof. induction l as [|x l IH]; cbn; [reflexivity|]. destruct (g x); [discriminate|]. intros E. now rewrite IH. Qed.
Lemma map_remove_first {A B} (h : A -> B) (g : A -> bool) (g' : B -> bool) l : (forall x, In x l -> g x = g' (h x)) -> map h (remove_first g l) = remove_first g' (map h l).
Proof. induction l as [|x l IH]; intros E; [reflexivity|]. cbn. rewrite <- E by now left. destruct (g x); [reflexivity|]. cbn. f_equal. apply IH. intros y Hy. apply E. now right. Qed.
Lemma In_without i l x : In x (without i l) -> In x l.
Proof. unfold without. intros H. apply filter_In in H. tauto. Qed.
Lemma replay_ext l : forall f g, (forall p, f p = g p) -> forall p, replay f l p = replay g l p.
Proof.
  induction l as [|[p front a data|p a] l IH]; intros f g E q; cbn [replay]; [apply E| |]; apply IH; intros r; destruct (Nat.eqb r p); now rewrite ?E.
Qed.
Lemma NoDup_filter_map {A B} (h : A -> B) (g : A -> bool) l : NoDup (map h l) -> NoDup (map h (filter g l)).
Proof.
  induction l as [|x l IH]; intros H; [constructor|]. cbn in *. inversion H as [|? ? N1 N2]; subst. destruct (g x); [|auto]. cbn. constructor; [|auto]. intros I. apply N1. apply in_map_iff in I. destruct I as [y [<- I]]. apply filter_In in I. apply in_map. tauto.
Qed.
Lemma same_step z s f h : same z s f -> retr_ok z h -> same z (snd (asteps s (ops_of h))) (replay f [h]).
Proof.
  intros [S1 [S2 [S3 [S4 S5]]]] Ok. destruct h as [p front a data|p a]; cbn [ops_of asteps snd replay].
  - cbn [astep snd]. set (x := Entry (count s) a data). assert (Hin : forall q y, In y (upd (db s) p (if front then x :: db s p else db s p ++ [x]) q) -> y = x /\ q = p \/ In y (db s q)).
    { intros q y. unfold upd. destruct (Nat.eqb q p) eqn:E; [apply Nat.eqb_eq in E; subst|auto]. destruct front; [intros [<-|H]; auto|]. intros H. apply in_app_iff in H. destruct H as [H|[<-|[]]]; auto. }
    split; [exact S1|]. cbn [db count]. split; [|split; [|split]].
    + intros q. unfold upd. destruct (Nat.eqb q p) eqn:E; [apply Nat.eqb_eq in E; subst|apply S2]. destruct front; [cbn; now rewrite S2|]. rewrite map_app. cbn. now rewrite S2.
    + intros q1 q2 y1 y2 I1 I2 E. destruct (Hin _ _ I1) as [[-> ->]|J1], (Hin _ _ I2) as [[-> ->]|J2]; auto; [apply S5 in J2|apply S5 in J1|exact (S3 _ _ _ _ J1 J2 E)]; cbn in E; lia.
    + intros q. unfold upd. destruct (Nat.eqb q p) eqn:E; [apply Nat.eqb_eq in E; subst|apply S4]. assert (Nx : ~ In (count s) (map eid (db s p))). { intros H. apply in_map_iff in H. destruct H as [y [H I]]. apply S5 in I. lia. }
      destruct front; [constructor; auto|]. rewrite map_app. cbn. rewrite <- (rev_involutive (map eid (db s p) ++ _)). apply NoDup_rev. rewrite rev_app_distr. cbn. constructor; [|exact (NoDup_rev (S4 p))]. rewrite <- in_rev. exact Nx.
    + intros q y I. destruct (Hin _ _ I) as [[-> ->]|J]; [cbn; split; [lia|]; cbn in Ok; destruct a; rewrite Ok; split; try discriminate; reflexivity|]. apply S5 in J. split; [lia|tauto].
  - set (s1 := snd (astep s (Call p a KRetract true))). assert (Es : snd (astep s1 (Cut 1)) = Ast (db s1) (count s1) (skipn 1 (astk s1)) (aenv s1) None) by reflexivity. rewrite Es. clear Es.
    assert (H1 : skipn 1 (astk s1) = [] /\ count s1 = count s /\ forall q, db s1 q = if Nat.eqb q p then remove_first (given a) (db s p) else db s q).
    { unfold s1. cbn [astep db]. destruct (filter (given a) (db s p)) as [|x l] eqn:Ef.
      - cbn. rewrite S1. split; [reflexivity|]. split; [reflexivity|]. intros q. destruct (Nat.eqb q p) eqn:E; [apply Nat.eqb_eq in E; subst|reflexivity]. now rewrite remove_first_nil.
      - assert (Ix : In x (db s p)). { assert (H : In x (filter (given a) (db s p))) by (rewrite Ef; now left). apply filter_In in H. tauto. }
        cbn [snd]. rewrite afound_stk. split; [destruct l; cbn; now rewrite S1|]. split; [destruct l; reflexivity|]. intros q.
        assert (Eq : db (afound (match l with [] => Ast (db s) (count s) (astk s) (aenv s) None | _ => Ast (db s) (count s) (AScan p KRetract l (aenv s) :: astk s) (aenv s) None end) p x KRetract true) q = without (eid x) (db s q)) by (destruct l; reflexivity).
        etransitivity; [exact Eq|]. destruct (Nat.eqb q p) eqn:E; [apply Nat.eqb_eq in E; subst; now apply remove_first_without with l|]. apply without_notin'. intros I. apply in_map_iff in I. destruct I as [y [Iy I]]. apply Nat.eqb_neq in E. apply E. exact (S3 q p y x I Ix Iy). }
    destruct H1 as [H1 [H2 H3]]. assert (Sub : forall q y, In y (db s1 q) -> In y (db s q)).
    { intros q y I. rewrite H3 in I. destruct (Nat.eqb q p) eqn:E; [apply Nat.eqb_eq in E; subst|exact I]. revert I. clear. induction (db s p) as [|z l IH]; [intros []|]. cbn. destruct (given a z); [now right|]. intros [->|I]; [now left|right; auto]. }
    split; [exact H1|]. cbn [db count]. split; [|split; [|split]].
    + intros q. rewrite H3. destruct (Nat.eqb q p) eqn:E; [|apply S2]. rewrite <- S2. apply map_remove_first. intros x Hx. apply (given_match z p); [exact Ok|]. exact (proj2 (S5 p x Hx)).
    + intros q1 q2 y1 y2 I1 I2. apply (S3 q1 q2 y1 y2); auto.
    + intros q. rewrite H3. destruct (Nat.eqb q p); [|apply S4]. generalize (S4 p). clear. induction (db s p) as [|z l IH]; [auto|]. cbn. intros H. inversion H as [|? ? N1 N2]; subst. destruct (given a z); [exact N2|]. cbn. constructor; [|auto]. intros I. apply N1. revert I. clear. induction l as [|y l IH]; [auto|]. cbn. destruct (given a y); [now right|]. intros [->|I]; [now left|right; auto].
    + intros q y I. rewrite H2. apply (S5 q y). auto.
Qed.
Lemma same_steps z l : forall s f, same z s f -> Forall (retr_ok z) l -> same z (snd (asteps s (flat_map ops_of l))) (replay f l).
Proof.
  induction l as [|h l IH]; intros s f S Ok; [exact S|]. inversion Ok as [|? ? O1 O2]; subst. cbn [flat_map]. rewrite asteps_app. cbn [snd].
  pose proof (IH _ _ (same_step z s f h S O1) O2) as H. destruct h; exact H.
Qed.
Lemma allowed_app l : forall s m, allowed s (l ++ m) <-> allowed s l /\ allowed (snd (asteps s l)) m.
Proof. induction l as [|o l IH]; intros s m; cbn [app allowed asteps snd]; [tauto|]. rewrite IH. tauto. Qed.
Lemma allowed_plain l : Forall (fun o => match o with Erase_Pred _ => False | _ => True end) l -> forall s, allowed s l.
Proof. induction 1 as [|o l Ho _ IH]; intros s; cbn; [exact I|]. split; [destruct o; auto; contradiction|apply IH]. Qed.
Definition plain (l : list op) : Prop := Forall (fun o => match o with Erase_Pred _ => False | _ => True end) l.
Lemma plain_hops l : plain (flat_map ops_of l).
Proof. unfold plain. induction l as [|[p front a data|p a] l IH]; cbn; repeat constructor; exact IH. Qed.
Lemma plain_enum p a n : plain (enumerate p a n).
Proof. unfold plain, enumerate. constructor; [exact I|]. induction (n - 1)%nat; cbn; constructor; auto. Qed.
(** After any history the clauses are those of the list, in its order. *)
Theorem C19_list_partial MC MS z l p : Forall (retr_ok z) l ->
  let c := replay (fun _ => []) l p in
  let ops := flat_map ops_of l ++ enumerate p (any_arg z p) (length c) in
  asserts ops < 2 ^ 31 -> calls ops < 2 ^ 64 - 1 ->
  exists o s, steps MC MS start ops = Ret (o ++ answers c, s) /\ length o = length (flat_map ops_of l).
Proof.
  intros Ok c ops Ba Bc. destruct (C17_refines MC MS ops) as [s E]; auto; [apply allowed_plain, Forall_app; split; [apply plain_hops|apply plain_enum]|].
  unfold ops in E. rewrite asteps_app in E. cbn [fst] in E. destruct (same_steps z l astart (fun _ => [])) as [_ [S2 _]]; auto.
  { split; [reflexivity|]. split; [reflexivity|]. split; [intros ? ? ? ? []|]. split; [constructor|intros ? ? []]. }
  set (s0 := snd (asteps astart (flat_map ops_of l))) in *. specialize (S2 p). fold c in S2. pose proof (enumerate_ok s0 p (any_arg z p)) as En. cbv zeta in En.
  assert (Ef : filter (given (any_arg z p)) (db s0 p) = db s0 p) by (clear; unfold any_arg; destruct (z p); induction (db s0 p) as [|x m IH]; cbn; congruence). rewrite Ef, S2 in En. rewrite En in E. eexists. exists s. split; [exact E|]. apply asteps_len.
Qed.
Example C19_ex :
  let l := [HAssert 0 false (AInt 1) 10; HAssert 1 true ALst 11; HAssert 0 true (AAtm 2) 20; HAssert 0 false AVar 30; HAssert 0 false (AInt 1) 40; HRetract 0 (AInt 1); HAssert 0 true (AInt 5) 50; HRetract 0 (AInt 1)] in
  Forall (retr_ok (fun _ => false)) l /\ replay (fun _ => []) l 0%nat = [(AInt 5, 50%nat); (AAtm 2, 20%nat); (AInt 1, 40%nat)] /\
  match steps 1 1 start (flat_map ops_of l ++ enumerate 0 AVar 3) with Ret (o, _) => skipn 10 o = [Some (AInt 5, 50%nat); Some (AAtm 2, 20%nat); Some (AInt 1, 40%nat)] | _ => False end.
Proof. cbv zeta. split; [repeat constructor|]. split; vm_compute; reflexivity. Qed.

(** ** C18: indexing *)
(** A call with a bound first argument is given a part of the clauses that an unindexed scan gives, in the same
    order; those that are left out do not match. *)
Theorem C18_index MC MS pre p a : allowed astart pre -> asserts pre < 2 ^ 31 -> calls pre + 1 < 2 ^ 64 - 1 ->
  exists lv la o s1 s2, length o = length pre /\
    steps MC MS start (pre ++ enumerate p AVar (length lv)) = Ret (o ++ answers lv, s1) /\
    steps MC MS start (pre ++ enumerate p a (length la)) = Ret (o ++ answers la, s2) /\
    (exists f, la = filter f lv) /\ filter (fun x => match1 a (fst x)) la = filter (fun x => match1 a (fst x)) lv.
Proof.
  intros Al Ba Bc. set (s0 := snd (asteps astart pre)). set (lv := map shown (filter (given AVar) (db s0 p))). set (la := map shown (filter (given a) (db s0 p))).
  assert (Run : forall b, exists s, steps MC MS start (pre ++ enumerate p b (length (map shown (filter (given b) (db s0 p))))) = Ret (fst (asteps astart pre) ++ answers (map shown (filter (given b) (db s0 p))), s)).
  { intros b. set (n := length _). destruct (C17_refines MC MS (pre ++ enumerate p b n)) as [s E].
    - apply allowed_app. split; [exact Al|]. apply allowed_plain, plain_enum.
    - unfold asserts, enumerate. rewrite filter_app, app_length. cbn [filter]. replace (filter _ (repeat _ _)) with (@nil op); [cbn [length]; rewrite Nat.add_0_r; exact Ba|]. induction (n - 1)%nat; auto.
    - unfold calls, enumerate in *. rewrite filter_app, app_length. cbn [filter length]. replace (filter _ (repeat _ _)) with (@nil op); [cbn [length]; lia|]. induction (n - 1)%nat; auto.
    - exists s. rewrite E, asteps_app. cbn [fst]. do 2 f_equal. unfold n. rewrite enumerate_ok. reflexivity. }
  destruct (Run AVar) as [s1 E1], (Run a) as [s2 E2]. exists lv, la, (fst (asteps astart pre)), s1, s2. split; [apply asteps_len|]. split; [exact E1|]. split; [exact E2|].
  assert (Ev : filter (given AVar) (db s0 p) = db s0 p) by (clear; induction (db s0 p) as [|x m IH]; cbn; congruence). unfold lv, la. rewrite Ev. split.
  - exists (fun x => given a (Entry 0 (fst x) 0)). clear. induction (db s0 p) as [|x l IH]; [reflexivity|]. cbn [map filter shown fst]. change (given a x) with (given a (Entry 0 (earg x) 0)). destruct (given a (Entry 0 (earg x) 0)); cbn; congruence.
  - clear. induction (db s0 p) as [|x l IH]; [reflexivity|]. cbn [map filter]. assert (H : given a x = false -> match1 a (fst (shown x)) = false) by (unfold given, match1, shown; cbn; destruct a, (earg x); congruence).
    destruct (given a x); cbn [map filter]; [now rewrite IH|]. now rewrite H.
Qed.
Example C18_ex :
  let pre := [Assert 0 false (AInt 1) 10 0; Assert 0 false (AInt 2) 20 0; Assert 0 true AVar 5 0; Assert 0 false (AAtm 1) 30 0; Assert 0 false (AInt 1) 40 0; Assert 0 false AVar 50 0;
    Call 0 AVar KBC true; Enter; Call 0 (AInt 2) KRetract true; Redo true] in
  allowed astart pre /\
  match steps 1 1 start (pre ++ enumerate 0 (AInt 1) 3) with Ret (o, _) => skipn 10 o = [Some (AInt 1, 10%nat); Some (AInt 1, 40%nat); Some (AVar, 50%nat)] | _ => False end /\
  match steps 1 1 start (pre ++ enumerate 0 AVar 4) with Ret (o, _) => skipn 10 o = [Some (AInt 1, 10%nat); Some (AAtm 1, 30%nat); Some (AInt 1, 40%nat); Some (AVar, 50%nat)] | _ => False end.
Proof. cbv zeta. split; [vm_compute; tauto|]. split; vm_compute; reflexivity. Qed.

(** ** C20: reclamation *)
(** No history reads or frees a block that was freed before: in particular the next clause of a goal and the
    byte-code of the clauses that run are there.  For all thresholds. *)
Theorem C20_safe_partial MC MS ops : allowed astart ops -> asserts ops < 2 ^ 31 -> calls ops < 2 ^ 64 - 1 ->
  exists o s, steps MC MS start ops = Ret (o, s).
Proof. intros A B C. destruct (C17_refines MC MS ops A B C) as [s E]. eauto. Qed.

Example C20_ex :
  match steps 1 1 start [Assert 0 false AVar 1 0; Assert 0 false AVar 2 0; Call 0 AVar KBC true; Enter; Call 0 AVar KRetract true; Redo true; Run; Leave; Redo true; Call 0 AVar KClause true] with
  | Ret (o, s) => o = [None; None; Some (AVar, 1%nat); None; Some (AVar, 1%nat); Some (AVar, 2%nat); Some (AVar, 1%nat); None; Some (AVar, 2%nat); None] /\ cls s 0%nat = None /\ cls s 1%nat = None
  | _ => False
  end.
Proof. vm_compute. repeat split. Qed.

(** makes a scan skip 100 erased clauses, so that the next update calls the reclamation *)
Definition long_skip (p : nat) : list op :=
  [Assert p false (AInt 0) 1 7] ++ repeat (Assert p false (AInt 1) 1 7) 100 ++ [Assert p false (AInt 2) 1 7; Call p (AInt 1) KRetract true] ++ repeat (Redo true) 99 ++
  [Call p AVar KClause true; Cut 1].
Definition run_then {A} (MC MS : Z) (ops : list op) (f : st -> outcome A) : outcome A := do r <- steps MC MS start ops; f (snd r).
(** The hypothesis [allowed] is needed: retract(p), retractall(p), fail.  The retract/1 that is resumed replaces the
    mark "all must be erased" with a list that ends in it (dynam_supp.c:715-716), which the reclamation follows
    as if it were a clause (1394-1398). *)
Theorem C20_retractall_in_retract_refuted : exists ops, asserts ops < 2 ^ 31 /\ calls ops < 2 ^ 64 - 1 /\ steps 1000 100 start ops = UB.
Proof.
  exists (repeat (Assert 0 false AVar 1 0) 3 ++ [Call 0 AVar KRetract true; Erase_Pred 0; Redo true; Cut 1] ++ long_skip 1 ++ [Call 1 AVar KClause true]).
  split; [vm_compute; reflexivity|]. split; vm_compute; reflexivity.
Qed.
(** Consulting a file that defines part of a predicate: the clauses are erased one by one, and the next clause is
    read from one that the reclamation has just freed (dynam_supp.c:762-768). *)
Theorem C20_erase_file_refuted : exists ops, asserts ops < 2 ^ 31 /\ (exists o s, steps 1000 100 start ops = Ret (o, s) /\ stk s = [] /\ env s = []) /\
  run_then 1000 100 ops (fun s => match pdyn s 0%nat with Some d => Erase_All_Clauses_Of_File 1000 100 s d 7 | None => Ret s end) = UB.
Proof.
  exists (long_skip 0). split; [vm_compute; reflexivity|]. split; [|vm_compute; reflexivity].
  pose (b := match steps 1000 100 start (long_skip 0) with Ret (_, s) => match stk s, env s with [], [] => true | _, _ => false end | _ => false end).
  assert (H : b = true) by (vm_compute; reflexivity). unfold b in H. destruct (steps 1000 100 start _) as [[o s]| |]; [|discriminate|discriminate]. exists o, s. split; [reflexivity|]. destruct (stk s), (env s); try discriminate. auto.
Qed.

(** The counters of clause numbers are ints that are set back only when the predicate is empty at a reclamation:
    2^31 assertz/1 without that overflow. *)
Lemma assert_count MC MS : forall n s a na nc d D, Inv s a na nc -> 0 <= na -> 0 <= nc < 2 ^ 64 - 1 -> pdyn s 0%nat = Some d -> dyns s d = Some D -> count_z D + Z.of_nat (S n) = 2 ^ 31 -> na = count_z D ->
  steps MC MS s (repeat (Assert 0 false AVar 1 0) (S n)) = UB.
Proof.
  induction n as [|n IH]; intros s a na nc d D HI Hna Hnc Hp Hd Hz Hn.
  - cbn [repeat steps step]. unfold Add_Dynamic_Clause, the_dyn. cbn [pdyn with_stk]. rewrite Hp. unfold getd at 1. cbn [dyns with_stk]. rewrite Hd. cbn [bind]. unfold ck_int. replace (count_z D + 1 <? 2 ^ 31) with false by (symmetry; apply Z.ltb_ge; lia). now rewrite andb_false_r.
  - change (repeat ?o (S (S n))) with (o :: repeat o (S n)). cbn [steps].
    pose proof (step_ok MC MS s a na nc (Assert 0 false AVar 1 0) HI Hna (proj1 Hnc)) as St. cbn [is_assert is_call] in St. destruct St as [s1 [E1 HI1]]; [lia|lia|exact I|]. rewrite E1. cbn [bind snd fst].
    destruct HI as [L [LD [H Mk]]]. pose proof (r_dok _ _ _ _ _ _ _ H d D Hd) as K. pose proof (r_cnt _ _ _ _ _ _ _ H d D Hd) as Cn.
    cbn [step] in E1. rewrite add_at_eq in E1. unfold the_dyn in E1. cbn [pdyn with_stk] in E1. rewrite Hp in E1.
    destruct (add_at_ok (with_stk s (stk s) (env s) None) d D (L d) false AVar 1%nat 0 Hd K) as [s2 [D2 [A [_ [B [C [_ [_ [_ [_ [Cz _]]]]]]]]]]]; try lia.
    { cbn. destruct (cls s (nextc s)) as [c|] eqn:E; [|reflexivity]. destruct (r_own _ _ _ _ _ _ _ H _ _ E) as [X _]. lia. }
    rewrite A in E1. cbn [bind] in E1. injection E1 as <-. injection B as B1 B2 B3 B4 B5 B6 B7 B8.
    assert (E : steps MC MS s2 (repeat (Assert 0 false AVar 1 0) (S n)) = UB).
    { apply (IH s2 _ (na + 1) (nc + 0) d D2 HI1); try (rewrite B2; exact Hp); try (rewrite C; apply upd_eq); try lia. }
    rewrite E. reflexivity.
Qed.
Lemma many : exists m, Z.of_nat (S m) = 2 ^ 31 - 1.
Proof. exists (Z.to_nat (2 ^ 31 - 2)). rewrite Nat2Z.inj_succ, Z2Nat.id by discriminate. reflexivity. Qed.
Theorem C19_count_refuted MC MS : exists ops, Forall (fun o => exists p a d f, o = Assert p false a d f) ops /\ steps MC MS start ops = UB.
Proof.
  destruct many as [m Hm]. exists (Assert 0 false AVar 1 0 :: repeat (Assert 0 false AVar 1 0) (S m)). split.
  - apply Forall_forall. intros o [<-|Ho]; [|apply repeat_spec in Ho; subst]; do 4 eexists; reflexivity.
  - remember (repeat (Assert 0 false AVar 1 0) (S m)) as t eqn:Et. cbn [steps].
    pose proof (step_ok MC MS start astart 0 0 (Assert 0 false AVar 1 0) start_inv) as St. cbn [is_assert is_call] in St. destruct St as [s1 [E1 HI1]]; try lia; try exact I.
    assert (B : match step MC MS start (Assert 0 false AVar 1 0) with Ret (_, s) => (pdyn s 0%nat, option_map count_z (dyns s 0%nat)) | _ => (None, None) end = (Some 0%nat, Some 1)) by reflexivity.
    rewrite E1 in *. cbn [bind snd fst]. injection B as B1 B2. destruct (dyns s1 0%nat) as [D|] eqn:HD; [|discriminate]. cbn in B2. injection B2 as B2.
    assert (H : steps MC MS s1 t = UB); [|now rewrite H]. rewrite Et. apply (assert_count MC MS m s1 _ (0 + 1) (0 + 0) 0%nat D HI1); auto; rewrite ?B2; lia.
Qed.

(** ** C55: erased clauses are reclaimed *)
(** Nothing is lost: every block that is still allocated is in the list of the clauses of an allocated predicate. *)
Fixpoint follow (s : st) (n : nat) (p : option nat) : option nat :=
  match n, p with O, _ => p | _, None => None | S n, Some x => match cls s x with Some c => follow s n (c_next (c_seq c)) | None => None end end.
Lemma seg_follow s l : forall pv, seg (cf (cls s) Seq) pv l None -> forall x, In x l -> exists n, follow s n (nxt l None) = Some x.
Proof.
  induction l as [|y l IH]; intros pv H x I; [destruct I|]. destruct H as [H1 H2]. destruct I as [->|I]; [now exists 0%nat|].
  destruct (IH _ H2 x I) as [n Hn]. exists (S n). cbn. unfold cf in H1. destruct (cls s y) as [c|]; [|discriminate]. cbn in H1. injection H1 as H1. rewrite H1. exact Hn.
Qed.
Theorem C55_nothing_lost_partial MC MS ops o s x c : allowed astart ops -> asserts ops < 2 ^ 31 -> calls ops < 2 ^ 64 - 1 -> steps MC MS start ops = Ret (o, s) -> cls s x = Some c ->
  exists D h n, dyns s (c_dyn c) = Some D /\ d_hd D Seq = Some h /\ follow s n (h_first h) = Some x.
Proof.
  intros Al Ba Bc E Hx. destruct (steps_ok MC MS ops start astart 0 0 start_inv Al) as [s' [E' HI]]; try lia. rewrite E in E'. injection E' as _ <-.
  destruct HI as [L [LD [H _]]]. destruct (r_own _ _ _ _ _ _ _ H x c Hx) as [_ [[D HD] I]]. pose proof (r_dok _ _ _ _ _ _ _ H _ D HD) as K. exists D.
  pose proof (k_ch _ _ _ _ _ K Seq) as Ch. pose proof (k_seq _ _ _ _ _ K) as Ks. unfold chk in Ch. destruct (d_hd D Seq) as [h|]; [|now elim Ks]. exists h. cbn [sub] in Ch. destruct Ch as [[C1 [_ C2]] _]. rewrite C1. destruct (seg_follow s _ _ C2 x I) as [n Hn]. exists n. auto.
Qed.
Example C55_ex :
  let ops := [Assert 0 false AVar 1 0; Assert 0 false AVar 2 0; Call 0 AVar KClause true; Call 0 AVar KRetract true] in
  allowed astart ops /\
  match steps 1 1 start ops with
  | Ret (_, s) => match cls s 0%nat, dyns s 0%nat with
    | Some c, Some D => c_stamp c <> ALIVE /\ match d_hd D Seq with Some h => follow s 0 (h_first h) = Some 0%nat /\ follow s 1 (h_first h) = Some 1%nat | None => False end
    | _, _ => False end
  | _ => False
  end.
Proof. vm_compute. repeat split. discriminate. Qed.
(** But an environment of a predicate without erased clauses leaves a mark in it (dynam_supp.c:1342-1343) when it is
    not in the list of the predicates to clean (1355-1372): its next erased clause is not entered in the list
    (dynam_supp.c:708-712), and none of its clauses is ever freed.  With no choice point, no environment. *)
Theorem C55_mark_refuted : exists ops, asserts ops < 2 ^ 31 /\ calls ops < 2 ^ 64 - 1 /\ allowed astart ops /\
  match steps 1 1 start ops with
  | Ret (_, s) => stk s = [] /\ env s = [] /\ cur s = None /\ exists c, cls s 0%nat = Some c /\ c_stamp c <> ALIVE /\ match GC_Clause 0 0 s with Ret s' => cls s' 0%nat <> None /\ cls s' 1%nat = None | _ => False end
  | _ => False
  end.
Proof.
  exists [Assert 0 false AVar 1 0; Assert 1 false AVar 1 0; Call 0 AVar KBC true; Enter; Call 1 AVar KRetract true; Leave; Call 0 AVar KRetract true; Call 0 AVar KRetract true].
  split; [vm_compute; reflexivity|]. split; [vm_compute; reflexivity|]. split; [vm_compute; tauto|]. vm_compute. repeat split. eexists. repeat split; discriminate.
Qed.

Print Assumptions C17_refines.
Print Assumptions C17_snapshot.
Print Assumptions C19_list_partial.
Print Assumptions C18_index.
Print Assumptions C20_safe_partial.
Print Assumptions C20_retractall_in_retract_refuted.
Print Assumptions C20_erase_file_refuted.
Print Assumptions C19_count_refuted.
Print Assumptions C55_nothing_lost_partial.
Print Assumptions C55_mark_refuted.
