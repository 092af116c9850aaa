(** C36: findall/3-4 *)
Require Import ZArith List Bool Lia.
Require Import Verif.Term_Model Verif.Heap_Model Verif.Unify_Model Verif.Unify_Spec Verif.Unify_Proofs Verif.Mem_Example.
Require Import Verif.Heap_Proofs Verif.Copy_Model Verif.Copy_Spec Verif.Props_Copy Verif.Findall_Model Verif.Findall_Spec Verif.Findall_Proofs Verif.Keys_Proofs.
Import ListNotations.
Open Scope Z_scope.

Lemma exec_inv L hend fd lim m H es s : exec L hend fd lim (Fs m H [] []) es s -> inv s (real es).
Proof.
  remember (Fs m H [] []) as s0. intros X. induction X as [s|s es s' e s'' _ IH Le Bg St]; subst.
  - constructor; cbn [f_m f_sol f_marks]; cbn; auto.
  - unfold real. rewrite fold_left_app. cbn [fold_left]. exact (step_inv L hend fd lim s' e s'' _ (IH eq_refl) Le Bg St).
Qed.
Lemma iter_empty : forall n l, (n < length l)%nat -> Forall (fun c : list term => c = []) (firstn n l) ->
  Nat.iter n merge l = skipn n l.
Proof.
  induction n as [|n IH]; intros l Hn E; [reflexivity|].
  destruct l as [|c [|d l]]; cbn [length] in Hn; try lia. cbn [firstn] in E. inversion E as [|? ? -> E']; subst.
  cbn [Nat.iter skipn]. change (merge (Nat.iter n merge ([] :: d :: l)) = skipn n (d :: l)). rewrite iter_comm. cbn [merge].
  rewrite app_nil_r. apply IH; [cbn [length]; lia|exact E'].
Qed.

(** findall/4 returns copies of the solutions of its own goal only, in the order they were
    found, with new variables, different in each; the rest of the memory is as before, and
    so is what the findall around it have collected ([inv], used by the next
    step).  This is for executions in which exceptions do not leave findall that have found
    solutions ([clean]); see [C36_exception_refuted].  The result is [None], a fatal error,
    only if the heap is too small *)
Theorem C36_findall_partial :
  forall L hend fd lim m H es s stop mk tail tt c lv,
  exec L hend fd lim (Fs m H [] []) es s -> clean [[]] es ->
  f_marks s = stop :: mk -> ideal es = c :: lv ->
  f_H s <= hend -> (forall x, f_H s <= x < hend -> f_m s x = None) ->
  den (visible (f_m s) (f_sol s)) tail tt ->
  exists F r, (forall fuel, (F <= fuel)%nat -> Recover_Solutions hend fuel (f_m s) (f_H s) (f_sol s) stop tail = Ret r) /\
  match r with
  | None => hend < f_H s + need c
  | Some (m', H', w, sol') => H' = f_H s + need c /\ H' <= hend /\
      (exists us, den (visible m' sol') w (list_tail us tt) /\ Forall2 variant c us /\ ForallOrdPairs no_common_var us /\
         Forall (fun u => forall a, In a (occs false u) -> f_H s <= a < H') us) /\
      (forall x, ~ (f_H s <= x < H') -> in_block (f_sol s) x = false -> m' x = f_m s x)
  end.
Proof.
  intros L hend fd lim m H es s stop mk tail tt c lv X Cl Em Ei Hh Fr Dt.
  pose proof (exec_inv _ _ _ _ _ _ _ _ X) as I.
  assert (Er : real es = ideal es).
  { unfold real, ideal.
    enough (G : forall es1 es2, es = es1 ++ es2 -> fold_left real_step es1 [[]] = fold_left ideal_step es1 [[]] ->
       clean (fold_left ideal_step es1 [[]]) es2 -> fold_left real_step es [[]] = fold_left ideal_step es [[]]).
    { exact (G [] es eq_refl eq_refl Cl). }
    intros es1 es2. revert es1. induction es2 as [|e es2 IH]; intros es1 -> E1 Cl2; [now rewrite app_nil_r|].
    cbn [clean] in Cl2. destruct Cl2 as (C1 & C2).
    apply (IH (es1 ++ [e])); [now rewrite <- app_assoc| |rewrite fold_left_app; exact C2].
    rewrite !fold_left_app. cbn [fold_left]. rewrite E1. destruct e; auto. cbn [real_step ideal_step].
    assert (Ln : (n < length (fold_left ideal_step es1 [[]]))%nat).
    { rewrite <- E1. clear - X. remember (Fs m H [] []) as s0. remember (es1 ++ EThrow n :: es2) as es. revert es2 Heqes.
      induction X as [s|s es s' e s'' X IH Le Bg St]; intros es2 E; [destruct es1; discriminate|]. subst s.
      destruct (exists_last (l := EThrow n :: es2)) as (l & e' & E'); [discriminate|].
      rewrite E' in E. rewrite app_assoc in E. apply app_inj_tail in E. destruct E as (-> & ->).
      destruct l as [|e0 l].
      - destruct es2; [|destruct es2; discriminate]. cbn [app] in E'. injection E' as <-. rewrite app_nil_r in X.
        pose proof (exec_inv _ _ _ _ _ _ _ _ X) as I. pose proof (marks_len _ _ (i_marks _ _ I)) as Ln.
        inversion St; subst. cbn [f_marks] in Ln. fold (real es1). lia.
      - cbn [app] in E'. injection E' as E1 E2. subst e0 es2. exact (IH eq_refl l eq_refl). }
    rewrite (iter_empty n _ Ln C1). destruct (fold_left ideal_step es1 [[]]); reflexivity. }
  rewrite Er, Ei in I.
  destruct (Recover_ok hend s c lv stop mk tail tt I Em Fr Hh Dt) as (F & r & K & Kr).
  exists F, r. split; [exact K|]. destruct r as [[[[m' H'] w] sol']|]; [|exact Kr].
  destruct Kr as (K1 & K2 & _ & K3 & K4). auto.
Qed.

(** in general the solutions of the findall left by an exception are among those of the
    one around them: [real] *)
Theorem C36_actual :
  forall L hend fd lim m H es s stop mk tail tt c lv,
  exec L hend fd lim (Fs m H [] []) es s ->
  f_marks s = stop :: mk -> real es = c :: lv ->
  f_H s <= hend -> (forall x, f_H s <= x < hend -> f_m s x = None) ->
  den (visible (f_m s) (f_sol s)) tail tt ->
  exists F r, (forall fuel, (F <= fuel)%nat -> Recover_Solutions hend fuel (f_m s) (f_H s) (f_sol s) stop tail = Ret r) /\
  match r with
  | None => hend < f_H s + need c
  | Some (m', H', w, sol') => H' = f_H s + need c /\ H' <= hend /\
      (exists us, den (visible m' sol') w (list_tail us tt) /\ Forall2 variant c us /\ ForallOrdPairs no_common_var us /\
         Forall (fun u => forall a, In a (occs false u) -> f_H s <= a < H') us) /\
      (forall x, ~ (f_H s <= x < H') -> in_block (f_sol s) x = false -> m' x = f_m s x)
  end.
Proof.
  intros L hend fd lim m H es s stop mk tail tt c lv X Em Ei Hh Fr Dt.
  pose proof (exec_inv _ _ _ _ _ _ _ _ X) as I. rewrite Ei in I.
  destruct (Recover_ok hend s c lv stop mk tail tt I Em Fr Hh Dt) as (F & r & K & Kr).
  exists F, r. split; [exact K|]. destruct r as [[[[m' H'] w] sol']|]; [|exact Kr].
  destruct Kr as (K1 & K2 & _ & K3 & K4). auto.
Qed.

(** the number of running findall is that of the lists of [real] *)
Theorem C36_levels :
  forall L hend fd lim m H es s, exec L hend fd lim (Fs m H [] []) es s -> length (real es) = S (length (f_marks s)).
Proof.
  intros L hend fd lim m H es s X. exact (marks_len _ _ (i_marks _ _ (exec_inv _ _ _ _ _ _ _ _ X))).
Qed.

(** ** Two things that go wrong *)

(** findall(X, catch(findall(Y, (Y = a ; throw(b)), _), b, X = 1), L) should give [1]: the solution a
    belongs to the inner findall, which is left by the exception.  It gives [a, 1] *)
Definition lost : list event :=
  [EOpen; EOpen; ESol (ATM 200) 10 (TAtm 200); EThrow 1; ESol (INT 1) 20 (TInt 1)].
Definition stored (r : outcome (bres (mem * list onesol))) : mem * list onesol :=
  match r with Ret (BRet x) => x | _ => (fun _ => None, []) end.
Definition l1 := stored (Store_Solution (fun _ => 0) 10 5 (fun _ => None) [] (ATM 200) 10).
Definition l2 := stored (Store_Solution (fun _ => 0) 10 5 (fst l1) (snd l1) (INT 1) 20).
Lemma lost_exec : exec 1000 1000 (fun _ => 0) 10 (Fs (fun _ => None) 100 [] []) lost (Fs (fst l2) 100 (snd l2) [0]).
Proof.
  assert (M1 : forall x, fst l1 x = mem_of [(10, Word (ATM 200))] x).
  { intros x. change (fst l1 x) with (store (fun _ => None) 10 (Word (ATM 200)) x). unfold store, mem_of. cbn [find fst snd].
    rewrite (Z.eqb_sym 10 x). destruct (x =? 10); reflexivity. }
  assert (W0 : wf 1000 (fun _ => None)) by (apply (wfb_wf 1000 []); reflexivity).
  assert (W1 : wf 1000 (fst l1)).
  { assert (W : wf 1000 (mem_of [(10, Word (ATM 200))])) by (apply wfb_wf; reflexivity).
    destruct W as [A B C D]. split.
    - intros a c. rewrite M1. apply A.
    - intros a w E. rewrite M1 in E. apply mem_of_In in E. destruct E as [E|[]]. injection E as <- <-. exact I.
    - intros a b. rewrite M1. apply C.
    - intros a w E. rewrite M1 in E. apply mem_of_In in E. destruct E as [E|[]]. injection E as <- <-.
      exists (ATM 200). constructor. discriminate. }
  change lost with (((((([] ++ [EOpen]) ++ [EOpen]) ++ [ESol (ATM 200) 10 (TAtm 200)]) ++ [EThrow 1])) ++ [ESol (INT 1) 20 (TInt 1)]).
  apply ex_snoc with (s' := Fs (fst l1) 100 (snd l1) [0]).
  apply ex_snoc with (s' := Fs (fst l1) 100 (snd l1) [0; 0]).
  apply ex_snoc with (s' := Fs (fun _ => None) 100 [] [0; 0]).
  apply ex_snoc with (s' := Fs (fun _ => None) 100 [] [0]).
  apply ex_snoc with (s' := Fs (fun _ => None) 100 [] []). apply ex_nil.
  all: try exact I.
  1, 2: constructor.
  - cbn [legal f_m]. split; [exact W0|]. split; [exact I|]. split; [constructor|]. split; [reflexivity|]. reflexivity.
  - apply st_sol with (fuel := 5%nat); [discriminate|reflexivity].
  - apply st_throw with (n := 1%nat). cbn. lia.
  - cbn [legal f_m]. split; [exact W1|]. split; [exact I|]. split; [constructor|]. split; [reflexivity|].
    intros x R. cbn [words_of] in R. assert (x = 20) as -> by lia. reflexivity.
  - apply st_sol with (fuel := 5%nat); [discriminate|reflexivity].
Qed.
Definition l3 : mem * word :=
  match Recover_Solutions 1000 9 (fst l2) 100 (snd l2) 0 (ATM 91) with Ret (Some (m, _, w, _)) => (m, w) | _ => (fun _ => None, INT 0) end.
Theorem C36_exception_refuted :
  exists L hend fd lim m H es s tail m' H' w sol', exec L hend fd lim (Fs m H [] []) es s /\ legal L hend s (EClose tail w) /\
  ideal es = [[TInt 1]; []] /\ f_marks s = [0] /\ tail = ATM 91 /\
  Recover_Solutions hend 9 (f_m s) (f_H s) (f_sol s) 0 tail = Ret (Some (m', H', w, sol')) /\
  den m' w (list_tail [TAtm 200; TInt 1] (TAtm 91)).
Proof.
  exists 1000, 1000, (fun _ => 0), 10%nat, (fun _ => None), 100, lost, (Fs (fst l2) 100 (snd l2) [0]), (ATM 91), (fst l3), 106, (snd l3), [].
  split; [exact lost_exec|]. cbn [f_m f_H f_sol f_marks legal]. split; [|split; [reflexivity|split; [reflexivity|split; [reflexivity|split; [reflexivity|]]]]].
  - split; [lia|]. split; [|exists (TAtm 91); constructor].
    intros x R. change (fst l2 x) with (store (store (fun _ => None) 10 (Word (ATM 200))) 20 (Word (INT 1)) x).
    now rewrite !store_ne by lia.
  - apply (term_of_den (fst l3) 10). vm_compute. reflexivity.
Qed.

(** the last argument of findall/4 is stored in the heap as it is: if it is a variable of an
    environment, the list ends with a reference to the local stack (address 500, the
    heap is below 400), which is not a well formed memory; when the environment is gone the list is no
    term any more *)
Definition l4 : mem * word :=
  match Recover_Solutions 400 9 (store (fst l1) 500 (Word (REF 500))) 100 (snd l1) 0 (REF 500) with
  | Ret (Some (m, _, w, _)) => (m, w) | _ => (fun _ => None, INT 0) end.
Theorem C36_tail_refuted :
  exists L m H sol tail m' H' w sol', wf L m /\ wf_word L m tail /\ den (visible m sol) tail (TVar 500) /\
  (forall x, H <= x < L -> m x = None) /\
  Recover_Solutions L 9 m H sol 0 tail = Ret (Some (m', H', w, sol')) /\ ~ wf L m' /\
  den m' w (list_tail [TAtm 200] (TVar 500)) /\ m' (H + 1) = Some (Word (REF 500)) /\ L < 500.
Proof.
  set (m := store (fst l1) 500 (Word (REF 500))).
  assert (M1 : forall x, m x = mem_of [(10, Word (ATM 200)); (500, Word (REF 500))] x).
  { intros x. unfold m. change (fst l1) with (store (fun _ => None) 10 (Word (ATM 200))). unfold store, mem_of. cbn [find fst snd].
    rewrite (Z.eqb_sym 10 x), (Z.eqb_sym 500 x). destruct (Z.eqb_spec x 10), (Z.eqb_spec x 500); try reflexivity; lia. }
  exists 400, m, 100, (snd l1), (REF 500), (fst l4), 103, (snd l4), [].
  split; [|split; [|split; [|split; [|split; [reflexivity|]]]]].
  - assert (Q : forall a c, m a = Some c -> (a = 10 /\ c = Word (ATM 200)) \/ (a = 500 /\ c = Word (REF 500))).
    { intros a c E. rewrite M1 in E. apply mem_of_In in E. destruct E as [E|[E|[]]]; injection E as <- <-; auto. }
    split.
    + intros a c E. apply Q in E. lia.
    + intros a w E. apply Q in E as [[-> E]|[-> E]]; injection E as ->; [exact I|]. exists (REF 500). reflexivity.
    + intros a b E. apply Q in E as [[-> E]|[-> E]]; [discriminate|]. injection E as ->. lia.
    + intros a w E. apply Q in E as [[-> E]|[-> E]]; injection E as ->.
      * exists (ATM 200). constructor. discriminate.
      * exists (REF 500). apply drf_self; reflexivity.
  - exists (REF 500). reflexivity.
  - apply den_var. reflexivity.
  - intros x R. unfold m. rewrite store_ne by lia. change (fst l1 x) with (store (fun _ => None) 10 (Word (ATM 200)) x).
    now rewrite !store_ne by lia.
  - assert (E : fst l4 101 = Some (Word (REF 500))) by reflexivity.
    split; [intros W; destruct (wf_ref _ _ W 101 500 E); lia|]. split; [|split; [reflexivity|lia]].
    apply (term_of_den (fst l4) 10). vm_compute. reflexivity.
Qed.

(** ** Examples *)

(** two solutions f(X, Y, X) (X at 2, Y at 3; the structure at 4) and 7, the first found twice *)
Definition ex_cells : list (addr * cell) :=
  [(2, Word (REF 2)); (3, Word (REF 3)); (4, Func 102 3); (5, Word (REF 2)); (6, Word (REF 3)); (7, Word (REF 2))].
Definition ex_t : term := TCmp 102 [TVar 2; TVar 3; TVar 2].
Definition e1 := stored (Store_Solution (fun _ => 0) 10 9 (mem_of ex_cells) [] (STC 4) 20).
Definition e2 := stored (Store_Solution (fun _ => 0) 10 9 (fst e1) (snd e1) (STC 4) 30).
Definition e3 := stored (Store_Solution (fun _ => 0) 10 9 (fst e2) (snd e2) (INT 7) 40).
Definition ex_events : list event := [EOpen; ESol (STC 4) 20 ex_t; EOpen; EThrow 1; ESol (STC 4) 30 ex_t; ESol (INT 7) 40 (TInt 7)].
Lemma ex_store m sol w a t x : wf 1000 m -> wf_word 1000 m w -> den m w t -> nofd t = true ->
  (forall y, a <= y < a + words_of t -> m y = None) -> 0 <= a -> a + words_of t <= 1000 ->
  Store_Solution (fun _ => 0) 10 9 m sol w a = Ret (BRet x) -> wf 1000 (fst x).
Proof.
  intros W Ww D Nf Fr A1 A2 E. unfold Store_Solution in E.
  destruct (Term_Size (fun _ => 0) 9 m w) as [n| |]; try discriminate. cbn [bind] in E.
  destruct (C14_copy_term 1000 m 10 a w t W Ww D Nf Fr) as (F & r & K & Kr).
  destruct (Copy_Term 10 9 m a w) as [r'| |] eqn:Q; try discriminate. cbn [bind] in E.
  assert (r' = r).
  { specialize (K (F + 9)%nat ltac:(lia)). unfold Copy_Term in *.
    destruct (Copy_Term_Rec 10 a 9 (Cst m [] (a + 1)) a w) as [r1| |] eqn:E1; try discriminate.
    rewrite (Copy_Proofs3.copy_mono 10 a 9 (F + 9) ltac:(lia) _ _ _ _ E1) in K. cbn [bind] in *. congruence. }
  subst r'. destruct r as [m'| |]; try discriminate. destruct (top_no sol + 1 <? 2 ^ 31); [|discriminate].
  injection E as <-. cbn [fst]. destruct Kr as (_ & ro & w' & _ & _ & _ & G). apply G; auto.
Qed.
Lemma ex_free l a n (m : mem) : forallb (fun i => match m (a + Z.of_nat i) with None => true | _ => false end) (seq 0 n) = true ->
  l = Z.of_nat n -> forall y, a <= y < a + l -> m y = None.
Proof.
  intros Q -> y R. rewrite forallb_forall in Q. specialize (Q (Z.to_nat (y - a))). rewrite in_seq in Q.
  replace (a + Z.of_nat (Z.to_nat (y - a))) with y in Q by lia.
  destruct (m y); auto. specialize (Q ltac:(lia)). discriminate.
Qed.
Example C36_findall_ex : exists s, exec 1000 1000 (fun _ => 0) 10 (Fs (mem_of ex_cells) 100 [] []) ex_events s /\ clean [[]] ex_events /\
  f_marks s = [0] /\ ideal ex_events = [[ex_t; ex_t; TInt 7]; []] /\
  exists m' w sol', Recover_Solutions 1000 9 (f_m s) (f_H s) (f_sol s) 0 (ATM 91) = Ret (Some (m', 117, w, sol')) /\
  den m' w (list_tail [TCmp 102 [TVar 114; TVar 115; TVar 114]; TCmp 102 [TVar 109; TVar 110; TVar 109]; TInt 7] (TAtm 91)).
Proof.
  assert (W0 : wf 1000 (mem_of ex_cells)) by (apply wfb_wf; reflexivity).
  assert (D0 : den (mem_of ex_cells) (STC 4) ex_t) by (apply (term_of_den _ 10); reflexivity).
  assert (V0 : wf_word 1000 (mem_of ex_cells) (STC 4)) by (apply wf_wordb_ok; reflexivity).
  assert (F0 : forall y, 20 <= y < 20 + words_of ex_t -> mem_of ex_cells y = None) by (apply (ex_free _ _ 5); reflexivity).
  assert (S0 : Store_Solution (fun _ => 0) 10 9 (mem_of ex_cells) [] (STC 4) 20 = Ret (BRet e1)) by reflexivity.
  assert (W1 : wf 1000 (fst e1)) by (apply (ex_store _ _ _ _ _ _ W0 V0 D0 eq_refl F0 ltac:(lia) ltac:(cbn; lia) S0)).
  assert (D1 : den (fst e1) (STC 4) ex_t) by (apply (term_of_den _ 10); reflexivity).
  assert (V1 : wf_word 1000 (fst e1) (STC 4)) by (apply wf_wordb_ok; reflexivity).
  assert (F1 : forall y, 30 <= y < 30 + words_of ex_t -> fst e1 y = None) by (apply (ex_free _ _ 5); reflexivity).
  assert (S1 : Store_Solution (fun _ => 0) 10 9 (fst e1) (snd e1) (STC 4) 30 = Ret (BRet e2)) by reflexivity.
  assert (W2 : wf 1000 (fst e2)) by (apply (ex_store _ _ _ _ _ _ W1 V1 D1 eq_refl F1 ltac:(lia) ltac:(cbn; lia) S1)).
  assert (F2 : forall y, 40 <= y < 40 + words_of (TInt 7) -> fst e2 y = None) by (apply (ex_free _ _ 1); reflexivity).
  assert (S2 : Store_Solution (fun _ => 0) 10 9 (fst e2) (snd e2) (INT 7) 40 = Ret (BRet e3)) by reflexivity.
  exists (Fs (fst e3) 100 (snd e3) [0]). split.
  - change ex_events with ((((((([] ++ [EOpen]) ++ [ESol (STC 4) 20 ex_t]) ++ [EOpen]) ++ [EThrow 1])) ++ [ESol (STC 4) 30 ex_t]) ++ [ESol (INT 7) 40 (TInt 7)]).
    apply ex_snoc with (s' := Fs (fst e2) 100 (snd e2) [0]).
    apply ex_snoc with (s' := Fs (fst e1) 100 (snd e1) [0]).
    apply ex_snoc with (s' := Fs (fst e1) 100 (snd e1) [1; 0]).
    apply ex_snoc with (s' := Fs (fst e1) 100 (snd e1) [0]).
    apply ex_snoc with (s' := Fs (mem_of ex_cells) 100 [] [0]).
    apply ex_snoc with (s' := Fs (mem_of ex_cells) 100 [] []). apply ex_nil.
    all: try exact I. 1, 4: constructor.
    + split; [exact W0|]. split; [exact V0|]. split; [exact D0|]. split; [reflexivity|exact F0].
    + apply st_sol with (fuel := 9%nat); [discriminate|exact S0].
    + apply st_throw with (n := 1%nat). cbn. lia.
    + split; [exact W1|]. split; [exact V1|]. split; [exact D1|]. split; [reflexivity|exact F1].
    + apply st_sol with (fuel := 9%nat); [discriminate|exact S1].
    + split; [exact W2|]. split; [exact I|]. split; [constructor|]. split; [reflexivity|exact F2].
    + apply st_sol with (fuel := 9%nat); [discriminate|exact S2].
  - split; [cbn; auto 20|]. split; [reflexivity|]. split; [reflexivity|].
    set (r := match Recover_Solutions 1000 9 (fst e3) 100 (snd e3) 0 (ATM 91) with Ret (Some (m, _, w, _)) => (m, w) | _ => (fun _ => None, INT 0) end).
    exists (fst r), (snd r), []. split; [reflexivity|]. apply (term_of_den (fst r) 20). vm_compute. reflexivity.
Qed.

Print Assumptions C36_findall_partial.
Print Assumptions C36_actual.
Print Assumptions C36_levels.
Print Assumptions C36_exception_refuted.
Print Assumptions C36_tail_refuted.
Print Assumptions C36_findall_ex.
