(** C37: the keys of bagof/3 and setof/3 that are variants become the same key *)
Require Import ZArith List Bool Lia.
Require Import Verif.Term_Model Verif.Heap_Model Verif.Unify_Model Verif.Unify_Spec Verif.Unify_Proofs Verif.Mem_Example.
Require Import Verif.Heap_Proofs Verif.Copy_Model Verif.Copy_Spec Verif.Copy_Proofs Verif.Findall_Model Verif.Findall_Spec Verif.Findall_Proofs.
Require Import Verif.KeyVar_Model Verif.KeyVar_Spec Verif.KeyVar_Proofs Verif.Keys_Proofs Verif.Props_Findall.
Import ListNotations.
Open Scope Z_scope.

(** a property of the elements of two lists at different indices *)
Definition at_all {A B} (R : nat -> nat -> A -> A -> B -> B -> Prop) (l : list A) (r : list B) : Prop :=
  forall i j x y u v, nth_error l i = Some x -> nth_error r i = Some u -> nth_error l j = Some y -> nth_error r j = Some v -> R i j x y u v.

Lemma Forall2_nth {A B} (R : A -> B -> Prop) l r : Forall2 R l r -> forall i x u, nth_error l i = Some x -> nth_error r i = Some u -> R x u.
Proof. induction 1; intros [|i] a b Ea Eb; try discriminate; cbn in *; [congruence|eauto]. Qed.
Lemma Forall_nth {A} (P : A -> Prop) l : Forall P l -> forall i x, nth_error l i = Some x -> P x.
Proof. intros F i x E. rewrite Forall_forall in F. eauto using nth_error_In. Qed.
Lemma FOP_nth {A} (R : A -> A -> Prop) (Sy : forall x y, R x y -> R y x) l : ForallOrdPairs R l -> forall i j x y, i <> j ->
  nth_error l i = Some x -> nth_error l j = Some y -> R x y.
Proof.
  induction 1 as [|a l F _ IH]; intros [|i] [|j] x y N Ex Ey; try discriminate; try congruence; cbn [nth_error] in *.
  - injection Ex as <-. exact (Forall_nth _ _ F j y Ey).
  - injection Ey as <-. apply Sy. exact (Forall_nth _ _ F i x Ex).
  - apply (IH i j); auto.
Qed.
Lemma linked_lim V lim t u : linked V t u -> (length V <= lim)%nat -> ~ more_vars lim (key_of t).
Proof.
  intros (ro & xs & _ & _ & Fo & Nt & _) Lv (l & Nd & Il & Ll).
  assert (L1 : (length l <= length xs)%nat).
  { apply NoDup_incl_length; auto. intros x I. apply (first_occ_In _ _ Fo). auto. }
  assert (L2 : (length xs <= length V)%nat).
  { destruct xs as [|x0 xs]; [cbn; lia|]. set (l' := x0 :: xs) in *.
    destruct (nth_error l' (length xs)) as [y|] eqn:E.
    - apply Nt in E. assert (X : nth_error V (length xs) <> None) by congruence. apply nth_error_Some in X. cbn. lia.
    - apply nth_error_None in E. cbn in E. lia. }
  lia.
Qed.

(** In any execution, Pl_Recover_Solutions_4 called by bagof/3 or setof/3 for solutions that
    are pairs gives copies of all of them, in order; two keys are the same term if and only if they
    were variants of each other; variables common to two copies are variables of
    both keys.  It raises an exception if and only if a key has more
    than MAX_VAR_IN_TERM variables (and if the heap is large enough) *)
Theorem C37_keys :
  forall L hend fd lim m H es s stop mk tail tt c lv,
  exec L hend fd lim (Fs m H [] []) es s ->
  f_marks s = stop :: mk -> real es = c :: lv -> Forall is_pair c ->
  f_H s <= hend -> (forall x, f_H s <= x < hend -> f_m s x = None) ->
  den (visible (f_m s) (f_sol s)) tail tt ->
  exists F r, (forall fuel, (F <= fuel)%nat -> Recover_Solutions_Key hend lim fuel (f_m s) (f_H s) (f_sol s) stop tail = Ret r) /\
  match r with
  | None => hend < f_H s + need c
  | Some BThrow => exists t, In t c /\ more_vars lim (key_of t)
  | Some (BRet (m', H', w, sol')) => H' = f_H s + need c /\ H' <= hend /\ (forall t, In t c -> ~ more_vars lim (key_of t)) /\
      (exists us, den (visible m' sol') w (list_tail us tt) /\ Forall2 variant c us /\
         at_all (fun i j t1 t2 u1 u2 => (key_of u1 = key_of u2 <-> variant (key_of t1) (key_of t2)) /\
           (i <> j -> forall a, In a (occs false u1) -> In a (occs false u2) -> In a (occs false (key_of u1)) /\ In a (occs false (key_of u2)))) c us /\
         Forall (fun u => forall a, In a (occs false u) -> f_H s <= a < H') us) /\
      (forall x, ~ (f_H s <= x < H') -> in_block (f_sol s) x = false -> m' x = f_m s x)
  end.
Proof.
  intros L hend fd lim m H es s stop mk tail tt c lv X Em Ei Pr Hh Fr Dt.
  pose proof (exec_inv _ _ _ _ _ _ _ _ X) as I. rewrite Ei in I.
  destruct (Recover_Key_ok hend lim s c lv stop mk tail tt I Pr Em Fr Hh Dt) as (F & r & K & Kr).
  exists F, r. split; [exact K|]. destruct r as [[[[[m' H'] w] sol']|]|]; [|exact Kr|exact Kr].
  destruct Kr as (K1 & K2 & _ & (V & us & D & Lv & Lk & Co & R) & K4). split; [exact K1|]. split; [exact K2|]. split; [|split; [|exact K4]].
  - intros t It. clear - Lk It Lv. induction Lk as [|t0 u ts us L0 _ IH]; [destruct It|]. destruct It as [->|It]; [exact (linked_lim V lim t u L0 Lv)|auto].
  - exists us. split; [exact D|]. split; [clear - Lk; induction Lk; constructor; eauto using linked_variant|]. split; [|exact R].
    intros i j t1 t2 u1 u2 E1 E2 E3 E4. pose proof (Forall2_nth _ _ _ Lk _ _ _ E1 E2) as L1. pose proof (Forall2_nth _ _ _ Lk _ _ _ E3 E4) as L2.
    pose proof (Forall_nth _ _ Pr _ _ E1) as P1. pose proof (Forall_nth _ _ Pr _ _ E3) as P2.
    split; [exact (linked_keys V t1 u1 t2 u2 P1 P2 L1 L2)|]. intros N a I1 I2.
    assert (Iv : In a V).
    { refine (FOP_nth (only_common V) _ us Co i j u1 u2 N E2 E4 a I1 I2). intros x y Q b B1 B2. exact (Q b B2 B1). }
    assert (G : forall t u, is_pair t -> linked V t u -> In a (occs false u) -> In a (occs false (key_of u))).
    { intros t u P (ro & xs & -> & Ij & Fo & _ & O) Ia. rewrite key_ren, occs_ren by exact P. rewrite occs_ren in Ia. apply in_map_iff in Ia.
      destruct Ia as (b & <- & Ib). apply in_map. apply (first_occ_In _ _ Fo). now apply O. }
    split; eauto.
Qed.

(** the exception of [C36_exception_refuted] in a bagof/3, before it has found a solution: the one left by the inner
    findall is not a pair, and Handle_Key_Variables takes the atom for a structure: undefined behaviour.
    bagof(X, catch((findall(Z, (Z = a ; throw(b)), _), X = Y), b, fail), L) should fail *)
Definition lost_bag : list event := [EOpen; EOpen; ESol (ATM 200) 10 (TAtm 200); EThrow 1].
Theorem C37_exception_refuted :
  exists L hend fd lim m H es s tail w, exec L hend fd lim (Fs m H [] []) es s /\ legal L hend s (EBag tail w) /\
  ideal es = [[]; []] /\ f_marks s = [0] /\
  forall fuel, (2 <= fuel)%nat -> Recover_Solutions_Key hend lim fuel (f_m s) (f_H s) (f_sol s) 0 tail = UB.
Proof.
  exists 1000, 1000, (fun _ => 0), 10%nat, (fun _ => None), 100, lost_bag, (Fs (fst l1) 100 (snd l1) [0]), (ATM 91), (ATM 91).
  split; [|split; [|split; [reflexivity|split; [reflexivity|]]]].
  - change lost_bag with (((([] ++ [EOpen]) ++ [EOpen]) ++ [ESol (ATM 200) 10 (TAtm 200)]) ++ [EThrow 1]).
    apply ex_snoc with (s' := Fs (fst l1) 100 (snd l1) [0; 0]).
    apply ex_snoc with (s' := Fs (fun _ => None) 100 [] [0; 0]).
    apply ex_snoc with (s' := Fs (fun _ => None) 100 [] [0]).
    apply ex_snoc with (s' := Fs (fun _ => None) 100 [] []). apply ex_nil.
    all: try exact I.
    1, 2: constructor.
    + cbn [legal f_m]. split; [apply (wfb_wf 1000 []); reflexivity|]. split; [exact I|]. split; [constructor|]. split; [reflexivity|]. reflexivity.
    + apply st_sol with (fuel := 5%nat); [discriminate|reflexivity].
    + apply st_throw with (n := 1%nat). cbn. lia.
  - cbn [legal f_m f_H f_sol]. split; [lia|]. split; [|exists (TAtm 91); constructor].
    intros x R. change (fst l1 x) with (store (fun _ => None) 10 (Word (ATM 200)) x). now rewrite !store_ne by lia.
  - intros [|[|f]] Lf; try lia. reflexivity.
Qed.

(** ** Example: two solutions f(X, Y)-X with different variables; the keys become the same, and so the values *)
Definition k_cells : list (addr * cell) :=
  [(2, Word (REF 2)); (3, Word (REF 3)); (4, Func 102 2); (5, Word (REF 2)); (6, Word (REF 3));
   (7, Func 45 2); (8, Word (STC 4)); (9, Word (REF 2));
   (10, Func 102 2); (11, Word (REF 3)); (12, Word (REF 2)); (13, Func 45 2); (14, Word (STC 10)); (15, Word (REF 3))].
Definition t_1 : term := TCmp 45 [TCmp 102 [TVar 2; TVar 3]; TVar 2].
Definition t_2 : term := TCmp 45 [TCmp 102 [TVar 3; TVar 2]; TVar 3].
Definition g1 := stored (Store_Solution (fun _ => 0) 10 9 (mem_of k_cells) [] (STC 7) 20).
Definition g2 := stored (Store_Solution (fun _ => 0) 10 9 (fst g1) (snd g1) (STC 13) 40).
Definition k_events : list event := [EOpen; ESol (STC 7) 20 t_1; ESol (STC 13) 40 t_2].
Definition g3 : mem * word :=
  match Recover_Solutions_Key 1000 10 9 (fst g2) 100 (snd g2) 0 (ATM 91) with Ret (Some (BRet (m, _, w, _))) => (m, w) | _ => (fun _ => None, INT 0) end.
Example C37_keys_ex : exists s, exec 1000 1000 (fun _ => 0) 10 (Fs (mem_of k_cells) 100 [] []) k_events s /\
  f_marks s = [0] /\ real k_events = [[t_1; t_2]; []] /\ Forall is_pair [t_1; t_2] /\
  exists m' H' w sol', Recover_Solutions_Key 1000 10 9 (f_m s) (f_H s) (f_sol s) 0 (ATM 91) = Ret (Some (BRet (m', H', w, sol'))) /\
  exists x y, x <> y /\ den m' w (list_tail [TCmp 45 [TCmp 102 [TVar x; TVar y]; TVar x]; TCmp 45 [TCmp 102 [TVar x; TVar y]; TVar x]] (TAtm 91)).
Proof.
  assert (W0 : wf 1000 (mem_of k_cells)) by (apply wfb_wf; reflexivity).
  assert (D0 : den (mem_of k_cells) (STC 7) t_1) by (apply (term_of_den _ 10); reflexivity).
  assert (V0 : wf_word 1000 (mem_of k_cells) (STC 7)) by (apply wf_wordb_ok; reflexivity).
  assert (F0 : forall y, 20 <= y < 20 + words_of t_1 -> mem_of k_cells y = None) by (apply (ex_free _ _ 7); reflexivity).
  assert (S0 : Store_Solution (fun _ => 0) 10 9 (mem_of k_cells) [] (STC 7) 20 = Ret (BRet g1)) by reflexivity.
  assert (W1 : wf 1000 (fst g1)) by (apply (ex_store _ _ _ _ _ _ W0 V0 D0 eq_refl F0 ltac:(lia) ltac:(cbn; lia) S0)).
  assert (D1 : den (fst g1) (STC 13) t_2) by (apply (term_of_den _ 10); reflexivity).
  assert (V1 : wf_word 1000 (fst g1) (STC 13)) by (apply wf_wordb_ok; reflexivity).
  assert (F1 : forall y, 40 <= y < 40 + words_of t_2 -> fst g1 y = None) by (apply (ex_free _ _ 7); reflexivity).
  assert (S1 : Store_Solution (fun _ => 0) 10 9 (fst g1) (snd g1) (STC 13) 40 = Ret (BRet g2)) by reflexivity.
  exists (Fs (fst g2) 100 (snd g2) [0]). split; [|split; [reflexivity|split; [reflexivity|split]]].
  - change k_events with ((([] ++ [EOpen]) ++ [ESol (STC 7) 20 t_1]) ++ [ESol (STC 13) 40 t_2]).
    apply ex_snoc with (s' := Fs (fst g1) 100 (snd g1) [0]).
    apply ex_snoc with (s' := Fs (mem_of k_cells) 100 [] [0]).
    apply ex_snoc with (s' := Fs (mem_of k_cells) 100 [] []). apply ex_nil.
    all: try exact I. 1: constructor.
    + split; [exact W0|]. split; [exact V0|]. split; [exact D0|]. split; [reflexivity|exact F0].
    + apply st_sol with (fuel := 9%nat); [discriminate|exact S0].
    + split; [exact W1|]. split; [exact V1|]. split; [exact D1|]. split; [reflexivity|exact F1].
    + apply st_sol with (fuel := 9%nat); [discriminate|exact S1].
  - repeat constructor; repeat eexists; discriminate.
  - exists (fst g3). eexists _, (snd g3), _. split; [reflexivity|].
    match goal with |- exists x y, _ => idtac end.
    exists 109, 110. split; [lia|]. apply (term_of_den (fst g3) 20). vm_compute. reflexivity.
Qed.

Print Assumptions C37_keys.
Print Assumptions C37_exception_refuted.
Print Assumptions C37_keys_ex.
