(** C63: cuts and control constructs.  Theorems and examples. *)
Require Import List Bool Arith ZArith Lia.
Require Import Verif.Sugar_Model Verif.Sugar_Spec Verif.Sugar_Proofs.
Require Verif.RegAlloc_Model Verif.First_Model Verif.Index_Model Verif.Heap_Model Verif.Props_First.
Import ListNotations.

(** ** A clause
    The predicate was entered with the choice points K0; A: its own choice points (the other clauses) and those of the goals
    before.  The answers are those of the meaning of the body, then backtracking goes to A, or to K0 after a cut. *)
Theorem C63_clause : forall St D optim head b fs k s (A K0 : stack St) out, runs St D fs k -> back St D (if snd (sem St D b s) then K0 else A ++ K0) out ->
  exec St D ((no_env, length K0, [sugar optim head b]) :: fs) s (A ++ K0) (flat_map k (fst (sem St D b s)) ++ out).
Proof. exact clause_ok. Qed.
(** ** A predicate: its clauses in order, up to the first one which cuts *)
Theorem C63_predicate : forall St D optim fs k s (K : stack St) out, runs St D fs k -> back St D K out -> forall bs,
  back St D (map (fun hb => (s, (no_env, length K, [sugar optim (fst hb) (snd hb)]) :: fs)) bs :: K) (flat_map k (psem St D (map snd bs) s) ++ out).
Proof. exact pred_ok. Qed.
(** ** There are no other answers *)
Theorem C63_only : forall St D optim head b s out, exec St D [(no_env, 0, [sugar optim head b])] s [] out <-> out = fst (sem St D b s).
Proof.
  intros St D optim head b s out.
  assert (G : exec St D [(no_env, 0, [sugar optim head b])] s [] (fst (sem St D b s))).
  { pose proof (clause_ok St D optim head b [] (fun x => [x]) s [] [] []) as G. cbn [app length] in G. rewrite app_nil_r in G.
    assert (E : forall l : list St, flat_map (fun x => [x]) l = l) by (induction l as [|x l IH]; [reflexivity|cbn; rewrite IH; reflexivity]). rewrite E in G. apply G.
    - intros x K o Q. apply e_answer. exact Q.
    - destruct (snd (sem St D b s)); apply b_end. }
  split; [intros Q; apply (proj1 (det St D) _ _ _ _ Q _ G)|intros ->; exact G].
Qed.
Theorem C63_deterministic : forall St D, (forall fs s K o1 o2, exec St D fs s K o1 -> exec St D fs s K o2 -> o1 = o2) /\ (forall K o1 o2, back St D K o1 -> back St D K o2 -> o1 = o2).
Proof. intros St D. destruct (det St D) as (D1 & D2). split; eauto. Qed.
(** ** The arguments of the auxiliary predicates are the variables shared with the rest of the clause *)
Theorem C63_arguments : forall optim head b, scoped head (sugar optim head b).
Proof. exact sugar_scoped. Qed.
(** ** the optimization of fail does not change the answers *)
Theorem C63_optim_fail : forall St D head b s out, exec St D [(no_env, 0, [sugar true head b])] s [] out <-> exec St D [(no_env, 0, [sugar false head b])] s [] out.
Proof. intros. rewrite !C63_only. reflexivity. Qed.

(** predicate 0 has two answers, predicate 1 none, the others one *)
Definition exD (p : nat) (vs : list nat) (s : list nat) : list (list nat) := match p with 0 => [10 :: s; 11 :: s] | 1 => [] | S (S n) => [S (S n) :: s] end.
(** p(X) :- a(X), (b(Y) -> !, c(Y) ; d(X)), e(X,Z). *)
Definition ex_if : body := BConj (BCall 0 [0]) (BConj (BOr (BIf (BCall 2 [1]) (BConj BCut (BCall 0 [1]))) (BCall 3 [0])) (BCall 4 [0; 2])).
Example C63_clause_ex : sugar true [0] ex_if =
    CConj (CGetLevel 3) (CConj (CCall 0 [0]) (CConj
      (CAux [3; 0] [CConj (CGetLevel 4) (CConj (CCall 2 [1]) (CConj (CCut 4) (CConj (CCut 3) (CCall 0 [1])))); CCall 3 [0]])
      (CCall 4 [0; 2]))) /\
  sem _ exD ex_if [] = ([[4; 10; 2; 10]; [4; 11; 2; 10]], true) /\
  runs _ exD [] (fun x => [x]) /\ back _ exD [[([99], [])]] [[99]] /\
  exec _ exD [(no_env, 1, [sugar true [0] ex_if])] [] ([[([88], [])]] ++ [[([99], [])]]) [[4; 10; 2; 10]; [4; 11; 2; 10]; [99]].
Proof.
  assert (R : runs _ exD [] (fun x => [x])) by (intros x K o Q; apply e_answer; exact Q).
  assert (B : back _ exD [[([99], [])]] [[99]]) by (apply b_last; apply e_answer; apply b_end).
  split; [reflexivity|]. split; [reflexivity|]. split; [exact R|]. split; [exact B|]. exact (C63_clause _ exD true [0] ex_if [] (fun x => [x]) [] [[([88], [])]] [[([99], [])]] [[99]] R B).
Qed.
(** p :- a, fail.   p :- a, !.   p :- b. *)
Example C63_predicate_ex : psem _ exD [BConj (BCall 0 []) BFail; BConj (BCall 0 []) BCut; BCall 2 []] [] = [[10]].
Proof. reflexivity. Qed.
(** p :- ((a, !) *-> b ; c).    the cut is local to the condition;   p :- (a *-> ! ; c), d.   p :- (fail *-> a ; fail ; (b -> fail ; !)) *)
Example C63_only_ex : sem _ exD (BOr (BSoft (BConj (BCall 0 []) BCut) (BCall 0 [])) (BCall 2 [])) [] = ([[10; 10]; [11; 10]], false) /\
  sem _ exD (BConj (BOr (BSoft (BCall 0 []) BCut) (BCall 2 [])) (BCall 3 [])) [] = ([[3; 10]], true) /\
  sem _ exD (BOr (BSoft (BCall 0 []) (BCall 0 [])) (BCall 2 [])) [] = ([[10; 10]; [11; 10]; [10; 11]; [11; 11]], false) /\
  sem _ exD (BOr (BSoft BFail (BCall 0 [])) (BOr BFail (BOr (BIf (BCall 1 []) BFail) BCut))) [] = ([[]], true) /\
  sugar true [] (BOr (BSoft (BConj (BCall 0 []) BCut) (BCall 0 [])) (BCall 2 [])) =
    CAux [] [CConj (CGetChoice 1) (CConj (CConj (CGetChoice 2) (CConj (CCall 0 []) (CCut 2))) (CConj (CSoft 1) (CCall 0 []))); CCall 2 []].
Proof. repeat split; reflexivity. Qed.
Example C63_optim_fail_ex : sugar true [] (BOr BFail (BOr (BIf (BCall 0 []) (BCall 2 [])) BFail)) = CConj (CGetChoice 1) (CConj (CCall 0 []) (CConj (CCut 1) (CCall 2 []))) /\
  sugar false [] (BOr BFail (BOr (BIf (BCall 0 []) (BCall 2 [])) BFail)) = CAux [] [CFail; CConj (CGetLevel 1) (CConj (CCall 0 []) (CConj (CCut 1) (CCall 2 []))); CFail].
Proof. split; reflexivity. Qed.
Example C63_arguments_ex : sugar true [0; 1] (BConj (BCall 5 [2]) (BOr (BCall 6 [1; 3; 3]) (BConj (BCall 7 [2; 4]) (BOr (BCall 8 [4; 3]) (BCall 9 [0]))))) =
  CConj (CCall 5 [2]) (CAux [1; 2; 0] [CCall 6 [1; 3; 3]; CConj (CCall 7 [2; 4]) (CAux [4; 0] [CCall 8 [4; 3]; CCall 9 [0]])]).
Proof. vm_compute. reflexivity. Qed.

(** ** Counterexample: the soft cut, when the indexing leaves only its clause
    p(X) :- (X = a *-> true ; X = b).    The clauses of the auxiliary predicate have the first arguments a and b: a call with
    X = a enters the first one without a choice point; '$get_current_choice' then gives a choice point of the caller, and
    '$soft_cut' removes it. *)
Import RegAlloc_Model.
Definition soft1 : list inst := [get_variable_x (T 0) (A 0); get_current_choice_x (T 1); get_arg (i_get_const (Catm 1)) (T 0); cut_x 1 (T 1); other i_proceed].
Definition soft2 : list inst := [get_variable_x (T 0) (A 0); get_arg (i_get_const (Catm 2)) (T 0); other i_proceed].
Theorem C63_soft_index_refuted : exists l1 l2 prog,
  Props_First.code_of 2 soft1 = Some l1 /\ Props_First.code_of 2 soft2 = Some l2 /\
  First_Model.find_first_arg Props_First.no_cut_y l1 = First_Model.FConst (Catm 1) /\ First_Model.find_first_arg Props_First.no_cut_y l2 = First_Model.FConst (Catm 2) /\
  Index_Model.indexing Z.leb (fun g => g) [(1%Z, Index_Model.FAtm 1); (2%Z, Index_Model.FAtm 2)] = Some prog /\
  (forall qs, Index_Model.exec qs prog (Index_Model.AAtm 1) 10 prog [] = Heap_Model.Ret [(1%Z, 0%Z)]) /\
  exists D b cl, sugar true [0] b = CAux [0] (cl :: [CCall 2 [0]]) /\ b = BOr (BSoft (BCall 1 [0]) (BCall 0 [])) (BCall 2 [0]) /\ sem nat D b 5 = ([5], false) /\
  exec nat D [(no_env, 1, [cl])] 5 [[(6, [])]] [5] /\ exec nat D [(no_env, 1, [sugar true [0] b])] 5 [[(6, [])]] [5; 6].
Proof.
  exists [get_variable_x (A 0) (A 0); get_current_choice_x (A 1); get_arg (i_get_const (Catm 1)) (A 0); cut_x 1 (A 1); other i_proceed], [get_variable_x (A 0) (A 0); get_arg (i_get_const (Catm 2)) (A 0); other i_proceed].
  eexists. split; [vm_compute; reflexivity|]. split; [vm_compute; reflexivity|]. split; [reflexivity|]. split; [reflexivity|]. split; [vm_compute; reflexivity|]. split; [intros qs; vm_compute; reflexivity|].
  set (D := fun (p : nat) (vs : list nat) (s : nat) => match p with 2 => [] | _ => [s] end). exists D, (BOr (BSoft (BCall 1 [0]) (BCall 0 [])) (BCall 2 [0])).
  exists (CConj (CGetChoice 2) (CConj (CCall 1 [0]) (CConj (CSoft 2) (CCall 0 [])))). split; [vm_compute; reflexivity|]. split; [reflexivity|]. split; [reflexivity|]. split.
  - apply e_conj. apply e_choice. apply e_conj. apply e_call. apply b_last. apply e_conj. apply (e_soft _ _ _ _ _ 1); [reflexivity|cbn; lia|]. apply e_call. apply b_last. apply e_return. apply e_answer. apply b_pop. apply b_end.
  - apply (C63_clause nat D true [0] (BOr (BSoft (BCall 1 [0]) (BCall 0 [])) (BCall 2 [0])) [] (fun x => [x]) 5 [] [[(6, [])]] [6]); [intros x K o Q; apply e_answer; exact Q|]. apply b_last. apply e_answer. apply b_end.
Qed.
Print Assumptions C63_clause.
Print Assumptions C63_predicate.
Print Assumptions C63_only.
Print Assumptions C63_deterministic.
Print Assumptions C63_arguments.
Print Assumptions C63_optim_fail.
Print Assumptions C63_soft_index_refuted.
