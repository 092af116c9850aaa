(** Theorems about the standard order (C07) and sorting (C08). *)
Require Import ZArith List Bool Lia Floats.SpecFloat Permutation Sorted.
Require Import Verif.Term_Model Verif.Term_Proofs Verif.Heap_Model Verif.Heap_Proofs.
Require Import Verif.Sort_Model Verif.Sort_Proofs Verif.Order_Spec Verif.Order_Proofs.
Import ListNotations.
Open Scope Z_scope.

(** C07.  [name] is the atom table; interning (C22) makes it injective.  [den m u t]:
    the word [u] stands for the finite term [t] in memory [m]. *)

(** compare terminates without undefined behaviour and answers according to the
    standard order: negative iff smaller, zero iff identical, positive iff larger. *)
Theorem C07_compare_is_standard_order :
  forall (name : Z -> list Z), (forall i j, name i = name j -> i = j) ->
  forall m u v t1 t2, den m u t1 -> den m v t2 -> nan_free t1 -> nan_free t2 ->
  exists x F, (forall fuel, (F <= fuel)%nat -> Term_Compare name fuel m u v = Ret x) /\
    (x < 0 <-> term_lt name t1 t2) /\ (x = 0 <-> same_term t1 t2) /\ (x > 0 <-> term_lt name t2 t1).
Proof.
  intros name inj m u v t1 t2 D1 D2 N1 N2.
  destruct (Term_Compare_correct name m u t1 D1 v t2 D2) as [F H].
  exists (tcmp name t1 t2), F. split; [exact H|].
  rewrite <- !tcmp_lt, <- (tcmp_same name inj) by auto.
  pose proof (tcmp_anti name t1 N1 t2 N2). lia.
Qed.

(** ... and that order is a strict total order on terms. *)
Theorem C07_order_is_total :
  forall (name : Z -> list Z), (forall i j, name i = name j -> i = j) ->
  (forall t1 t2, nan_free t1 -> nan_free t2 ->
     term_lt name t1 t2 \/ same_term t1 t2 \/ term_lt name t2 t1) /\
  (forall t1 t2, nan_free t1 -> nan_free t2 -> same_term t1 t2 -> ~ term_lt name t1 t2) /\
  (forall t1 t2 t3, nan_free t1 -> nan_free t2 -> nan_free t3 ->
     term_lt name t1 t2 -> term_lt name t2 t3 -> term_lt name t1 t3).
Proof.
  exact (fun name inj => conj (term_lt_total name inj)
    (conj (term_lt_irrefl name inj) (term_lt_trans name inj))).
Qed.

(** Without the exclusion of NaN the answers are not antisymmetric: a NaN is larger
    than itself. *)
Theorem C07_nan_refuted :
  exists (name : Z -> list Z) m u, forall fuel, (2 <= fuel)%nat -> Term_Compare name fuel m u u = Ret 1.
Proof.
  exists (fun i => [i]), (fun a => if a =? 0 then Some (Dbl S754_nan) else None), (FLT 0).
  intros [|[|fuel]] L; [lia|lia|]. reflexivity.
Qed.

(** example memory:  f(X, 'b', [1]) at 0, f(Y, 'a', Z) at 10, with Y -> X and Z -> 2.5 *)
Definition ex_mem : mem := fun a =>
  match a with
  | 0 => Some (Func 102 3) | 1 => Some (Word (REF 1)) | 2 => Some (Word (ATM 98))
  | 3 => Some (Word (LST 4)) | 4 => Some (Word (INT 1)) | 5 => Some (Word (ATM 91))
  | 10 => Some (Func 102 3) | 11 => Some (Word (REF 12)) | 12 => Some (Word (REF 1))
  | 13 => Some (Word (FLT 20))
  | 20 => Some (Dbl (S754_finite false 5 (-1)))
  | 30 => Some (Func 45 2) | 31 => Some (Word (INT 3)) | 32 => Some (Word (ATM 97))
  | 33 => Some (Func 45 2) | 34 => Some (Word (INT 2)) | 35 => Some (Word (ATM 98))
  | 36 => Some (Func 45 2) | 37 => Some (Word (INT 3)) | 38 => Some (Word (ATM 99))
  | _ => None
  end.
Definition ex_name (i : Z) : list Z := [i].

Example C07_ex :
  (forall i j, ex_name i = ex_name j -> i = j) /\
  den ex_mem (STC 0) (TCmp 102 [TVar 1; TAtm 98; TCmp 46 [TInt 1; TAtm 91]]) /\
  den ex_mem (STC 10) (TCmp 102 [TVar 1; TVar 1; TFlt (S754_finite false 5 (-1))]) /\
  Term_Compare ex_name 20 ex_mem (STC 0) (STC 10) = Ret 1 /\
  Term_Compare ex_name 20 ex_mem (STC 10) (STC 0) = Ret (-1).
Proof.
  split; [intros i j E; inversion E; auto|].
  split; [apply den_stc; [reflexivity|]; repeat (econstructor; try reflexivity; try discriminate)|].
  split; [apply den_stc; [reflexivity|]; repeat (econstructor; try reflexivity; try discriminate)|].
  split; reflexivity.
Qed.

(** C08.  [ws]: the words of the list to sort, each standing for a term without NaN;
    [cmp]: the answers of Pl_Term_Compare. *)
Theorem C08_msort :
  forall (name : Z -> list Z), (forall i j, name i = name j -> i = j) ->
  forall m (tm : word -> term) (cmp : word -> word -> Z) (ws : list word) (d : word),
  (forall w, In w ws -> den m w (tm w) /\ nan_free (tm w)) ->
  (forall u v, In u ws -> In v ws -> exists fuel, Term_Compare name fuel m u v = Ret (cmp u v)) ->
  let r := Sort_List word cmp 1 d ws in
  Permutation r ws /\
  StronglySorted (fun u v => ~ term_lt name (tm v) (tm u)) r /\
  forall w, In w ws -> filter (fun w' => cmp w w' =? 0) r = filter (fun w' => cmp w w' =? 0) ws.
Proof.
  intros name inj m tm cmp ws d T C. apply sw_keep; auto.
  - intros w I. now apply T.
  - intros u v Iu Iv. destruct (C u v Iu Iv) as [f H].
    eapply Term_Compare_det; [apply T; auto|apply T; auto|exact H].
Qed.

(** sort/2: strictly increasing, nothing invented, nothing lost but duplicates, and
    the first of several identical elements is the one kept. *)
Theorem C08_sort :
  forall (name : Z -> list Z), (forall i j, name i = name j -> i = j) ->
  forall m (tm : word -> term) (cmp : word -> word -> Z) (ws : list word) (d : word),
  (forall w, In w ws -> den m w (tm w) /\ nan_free (tm w)) ->
  (forall u v, In u ws -> In v ws -> exists fuel, Term_Compare name fuel m u v = Ret (cmp u v)) ->
  let r := Sort_List word cmp 0 d ws in
  incl r ws /\
  StronglySorted (fun u v => term_lt name (tm u) (tm v)) r /\
  (forall w, In w ws -> exists w', In w' r /\ same_term (tm w) (tm w')) /\
  (forall w, In w ws ->
    filter (fun w' => cmp w w' =? 0) r = firstn 1 (filter (fun w' => cmp w w' =? 0) ws)).
Proof.
  intros name inj m tm cmp ws d T C. apply sw_dedup; auto.
  - intros w I. now apply T.
  - intros u v Iu Iv. destruct (C u v Iu Iv) as [f H].
    eapply Term_Compare_det; [apply T; auto|apply T; auto|exact H].
Qed.

(** keysort/2: ordered by keys, a permutation, and pairs with equal keys keep their
    relative order. *)
Theorem C08_keysort :
  forall (name : Z -> list Z), (forall i j, name i = name j -> i = j) ->
  forall m (minus : Z) (key : word -> term) (cmp : word -> word -> Z) (ws : list word) (d : word),
  (forall w, In w ws -> exists a kw, w = STC a /\ m a = Some (Func minus 2) /\
     m (a + 1) = Some (Word kw) /\ den m kw (key w) /\ nan_free (key w)) ->
  (forall u v, In u ws -> In v ws -> exists fuel, Keysort_Cmp name fuel m u v = Ret (cmp u v)) ->
  let r := Sort_List word cmp 2 d ws in
  Permutation r ws /\
  StronglySorted (fun u v => ~ term_lt name (key v) (key u)) r /\
  forall w, In w ws -> filter (fun w' => cmp w w' =? 0) r = filter (fun w' => cmp w w' =? 0) ws.
Proof.
  intros name inj m minus key cmp ws d T C. apply sw_keep; auto.
  - intros w I. destruct (T w I) as (a & kw & _ & _ & _ & _ & N). exact N.
  - intros u v Iu Iv. destruct (C u v Iu Iv) as [f H].
    destruct (T u Iu) as (a & ku & -> & _ & Ku & Du & _).
    destruct (T v Iv) as (b & kv & -> & _ & Kv & Dv & _).
    unfold Keysort_Cmp, rd_word in H. rewrite Ku, Kv in H. cbn [bind] in H.
    eapply Term_Compare_det; eauto.
Qed.

(** [2-b, 3-a, 3-c] from [3-a, 2-b, 3-c]; [1] from [1,1] *)
Definition ex_cmp (u v : word) : Z :=
  match Term_Compare ex_name 20 ex_mem u v with Ret x => x | _ => 0 end.
Definition ex_kcmp (u v : word) : Z :=
  match Keysort_Cmp ex_name 20 ex_mem u v with Ret x => x | _ => 0 end.
Example C08_ex :
  Sort_List word ex_kcmp 2 (INT 0) [STC 30; STC 33; STC 36] = [STC 33; STC 30; STC 36] /\
  Sort_List word ex_kcmp 2 (INT 0) [STC 36; STC 33; STC 30] = [STC 33; STC 36; STC 30] /\
  Sort_List word ex_cmp 0 (INT 0) [INT 5; ATM 97; REF 12; INT 5; REF 1; INT (-3); ATM 97]
    = [REF 12; INT (-3); INT 5; ATM 97] /\
  Sort_List word ex_cmp 1 (INT 0) [INT 5; ATM 97; REF 12; INT 5; REF 1; INT (-3); ATM 97]
    = [REF 12; REF 1; INT (-3); INT 5; INT 5; ATM 97; ATM 97].
Proof. vm_compute. auto. Qed.

(** the hypotheses of C08 are met by that list *)
Example C08_ex_hyps :
  let ws := [INT 5; ATM 97; REF 12; INT 5; REF 1; INT (-3); ATM 97] in
  let tm w := match w with INT n => TInt n | ATM i => TAtm i | _ => TVar 1 end in
  (forall w, In w ws -> den ex_mem w (tm w) /\ nan_free (tm w)) /\
  (forall u v, In u ws -> In v ws ->
     exists fuel, Term_Compare ex_name fuel ex_mem u v = Ret (ex_cmp u v)).
Proof.
  cbv zeta. split.
  - intros w I. cbn in I. intuition subst; cbn; auto;
      try (repeat (econstructor; try reflexivity; try discriminate); fail).
  - intros u v Iu Iv. exists 20%nat. unfold ex_cmp.
    cbn in Iu, Iv. intuition subst; reflexivity.
Qed.

Print Assumptions C07_compare_is_standard_order.
Print Assumptions C07_order_is_total.
Print Assumptions C07_nan_refuted.
Print Assumptions C08_msort.
Print Assumptions C08_sort.
Print Assumptions C08_keysort.
