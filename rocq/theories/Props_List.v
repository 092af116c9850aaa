(** C34: append/3, reverse/2, length/2, nth0/3, nth1/3, memberchk/2 and member/2 give
    exactly the solutions, in order. *)
Require Import ZArith List Bool Lia.
Require Import Verif.Term_Model Verif.Heap_Model Verif.Heap_Proofs Verif.Unify_Model Verif.Unify_Spec
  Verif.Unify_Proofs Verif.Binding_Model Verif.Copy_Model Verif.Copy_Spec Verif.Mem_Example
  Verif.List_Model Verif.List_Spec Verif.List_Proofs Verif.List_Steps Verif.List_Append Verif.List_More
  Verif.List_Preds Verif.List_Member.
Import ListNotations.
Open Scope Z_scope.

Local Notation word_ok c s w := (wf_word (LSSA c) (mm (hm s)) w).

(** [k] bounds the cells read in one list.  The lengths are in [int] variables: lists of
    2^31 - 1 elements or more are left out. *)
Theorem C34_append : forall nil c s l1 l2 l3 k fuel n,
  state_ok c s -> word_ok c s l1 -> word_ok c s l2 -> word_ok c s l3 -> Z.of_nat k < 2147483647 ->
  runs (do r <- Append_3 nil k fuel c s l1 l2 l3; explore (Append_Alt_0 nil fuel c) n r)
    (fun x => answers c s (fun j I => is_append nil j (I l1) (I l2) (I l3)) 0 (fst x) (snd x)).
Proof.
  intros nil c s l1 l2 l3 k fuel n O W1 W2 W3 Hk. set (E := fun j I => is_append nil j (I l1) (I l2) (I l3)).
  eapply runs_bind; [exact (append_ok nil c s l1 l2 l3 k fuel O W1 W2 W3 Hk)|]. intros r Hr.
  eapply explore_ok; [|exact Hr]. intros b ch Hc. apply alt_append_ok. exact Hc.
Qed.

(** the accumulator is what was read so far, reversed *)
Theorem C34_reverse : forall nil c s l1 l2 k fuel n,
  state_ok c s -> word_ok c s l1 -> word_ok c s l2 -> Z.of_nat k < 2147483647 ->
  runs (do r <- Reverse_2 nil k fuel c s l1 l2; explore (Reverse_Alt_0 nil fuel c) n r)
    (fun x => answers c s (fun j I => is_reverse nil j (I l1) (I l2)) 0 (fst x) (snd x)).
Proof.
  intros nil c s l1 l2 k fuel n O W1 W2 Hk. set (E := fun j I => is_reverse nil j (I l1) (I l2)).
  eapply runs_bind; [exact (reverse_ok nil c s l1 l2 k fuel O W1 W2 Hk)|]. intros r Hr.
  eapply explore_ok; [|exact Hr]. intros b ch Hc. apply alt_reverse_ok. exact Hc.
Qed.

(** errors included: they are raised only if nothing is a solution *)
Theorem C34_length : forall nil c strict s l n k fuel m,
  state_ok c s -> word_ok c s l -> word_ok c s n ->
  runs (do r <- Length_2 nil k fuel c strict s l n; explore (Length_Alt_0 nil fuel c) m r)
    (fun x => answers c s (fun j I => is_length nil j (I l) (I n)) 0 (fst x) (snd x)).
Proof.
  intros nil c strict s l nw k fuel m O W1 W2. set (E := fun j I => is_length nil j (I l) (I nw)).
  eapply runs_bind; [exact (length_ok nil c strict s l nw k fuel O W1 W2)|]. intros r Hr.
  eapply explore_ok; [|exact Hr]. intros b ch Hc. apply alt_length_ok. exact Hc.
Qed.

(** nth0 with [base] 0, nth1 with [base] 1; the index is given *)
Theorem C34_nth : forall fuel c s i l x base, state_ok c s -> word_ok c s l -> word_ok c s x ->
  runs (Nth0_3 fuel c s i l x base)
    (answer_of c s (fun I => exists j, Z.of_nat j + base = i /\ is_member j (I x) (I l))).
Proof.
  intros fuel c s i l x base O Wl Wx. unfold Nth0_3. destruct (Z.ltb_spec (i - base) 0).
  - intros nu (j & Q & _). lia.
  - eapply runs_imp; [apply (nth_ok c fuel (Z.to_nat (i - base)) s l x O Wl Wx)|].
    assert (IE : forall I, M (Z.to_nat (i - base)) x l I <-> exists j, Z.of_nat j + base = i /\ is_member j (I x) (I l)).
    { intros J. split.
      - intros Q. exists (Z.to_nat (i - base)). split; [lia|exact Q].
      - intros (j & Q & Q'). replace (Z.to_nat (i - base)) with j by lia. exact Q'. }
    intros [s'| | | |]; cbn [rspec answer_of]; auto; try tauto.
    + intros S1. apply step_goal in S1 as [(A1 & A2 & A3 & A4) _]. split; [exact A1|]. split; [exact A2|]. split.
      * intros nu'. destruct (A3 nu') as [B1 B2]. split; [apply IE; exact B1|exact B2].
      * intros nu Q. apply A4, IE. exact Q.
    + intros N nu Q. apply (N nu), IE. exact Q.
Qed.

(** the element is not a reference to the local stack *)
Theorem C34_memberchk : forall k fuel c s x l, state_ok c s -> word_ok c s x -> word_ok c s l ->
  (forall b, x = REF b -> b < LSSA c) ->
  runs (Memberchk_2 k fuel c s x l) (first_of c s (fun j I => is_member j (I x) (I l))).
Proof. intros. now apply memberchk_ok. Qed.

(** the list does not end with a variable *)
Theorem C34_member : forall k fuel c s x l n, state_ok c s -> word_ok c s x -> word_ok c s l ->
  closed_list (mm (hm s)) l ->
  runs (do r <- Member_2 k fuel c s x l; explore (Member_Alt_0 k fuel c) n r)
    (fun y => answers c s (fun j I => is_member j (I x) (I l)) 0 (fst y) (snd y)).
Proof.
  intros k fuel c s x l n O Wx Wl C. set (E := fun j I => is_member j (I x) (I l)).
  eapply runs_bind; [exact (member_ok c s x l k fuel O Wx Wl C)|]. intros r Hr.
  eapply explore_ok; [|exact Hr]. intros b ch Hc. apply alt_member_ok; auto.
  intros j. apply (resp_M c s j x l); auto.
Qed.

(** ** Where it fails *)

(** a state of the machine: [l] below H *)
Definition ex_state (l : list (addr * cell)) (h : addr) : hst := Hst (St (mem_of l) []) h.
Lemma state_okb l h L : wfb L l && forallb (fun p => (fst p <? h) || (L <=? fst p)) l && (0 <=? h) && (h <=? L) = true ->
  forall B e, state_ok (Cfg B e L) (ex_state l h).
Proof.
  intros Q B e. apply andb_true_iff in Q as [Q Q4]. apply andb_true_iff in Q as [Q Q3].
  apply andb_true_iff in Q as [Q1 Q2]. apply Z.leb_le in Q3, Q4. rewrite forallb_forall in Q2.
  split; [cbn; now apply wfb_wf|]. split; [cbn; lia|]. intros a Ha. cbn in *.
  destruct (mem_of l a) as [d|] eqn:E; auto. apply mem_of_In in E. apply Q2 in E. cbn in E.
  apply orb_true_iff in E as [E|E]; [apply Z.ltb_lt in E|apply Z.leb_le in E]; lia.
Qed.
Definition cfg0 := Cfg 0 100 100.

(** member(1, [T|T]): the solution T = [1|_] is lost.  The first element is unified with 1
    before the end of the list is looked at: T is then 1 and no choice point is made. *)
Definition ex_lost := ex_state [(5, Word (REF 5)); (20, Word (REF 5)); (21, Word (REF 5))] 30.
Theorem C34_member_lost_refuted : exists c s x l, state_ok c s /\ word_ok c s x /\ word_ok c s l /\
  exists rs, (do r <- Member_2 10 10 c s x l; explore (Member_Alt_0 10 10 c) 10 r) = Ret (rs, false) /\
  exists j nu, is_member j (view s nu x) (view s nu l) /\
    forall s', In (Ok s') rs -> forall nu', ~ agree c s (view s nu) (view s' nu').
Proof.
  exists cfg0, ex_lost, (INT 1), (LST 20).
  split; [apply state_okb; reflexivity|]. split; [exact I|]. split; [apply wf_wordb_ok; reflexivity|].
  eexists. split; [vm_compute; reflexivity|].
  set (nu := fun _ : addr => tcons (tint 1) (tatom 0)). exists 1%nat, nu.
  assert (V : same_tree (view ex_lost nu (REF 5)) (tcons (tint 1) (tatom 0))) by (apply (lab_unbound (mm (hm ex_lost)) nu 5); reflexivity).
  split.
  - exists [tcons (tint 1) (tatom 0)], (tatom 0). split; [reflexivity|]. cbn [tlist fold_right].
    eapply same_tree_trans; [apply (lab_lst (mm (hm ex_lost)) nu 20 (REF 5) (REF 5)); reflexivity|].
    apply same_tcons; [exact V|]. eapply same_tree_trans; [exact V|]. apply same_tcons; [|apply same_tree_refl].
    apply same_tree_sym, lab_int_tree.
  - intros s' [Q|[]] nu' A. injection Q as <-.
    assert (A5 := A (REF 5) ltac:(apply wf_wordb_ok; reflexivity)).
    eapply tcons_not_int. eapply same_tree_trans; [apply same_tree_sym; exact V|].
    eapply same_tree_trans; [exact A5|]. eapply same_tree_trans; [apply (view_derefs _ nu' (REF 5) (INT 1))|apply lab_int_tree].
    eapply drf_step; [reflexivity|discriminate|]. apply drf_other. discriminate.
Qed.

(** member([V|V], [[T,[1|1]]|T]): the first answer is V = T = [[1|1]]; on backtracking T is
    a variable again, but the choice point holds its value, and V = 1 is a second answer
    with T unbound *)
Definition ex_wrong := ex_state [(4, Word (REF 4)); (5, Word (REF 5));
  (10, Word (REF 4)); (11, Word (REF 4));  (12, Word (INT 1)); (13, Word (INT 1));
  (14, Word (LST 12)); (15, Word (ATM 91));  (16, Word (REF 5)); (17, Word (LST 14));
  (18, Word (LST 16)); (19, Word (REF 5))] 20.
Theorem C34_member_wrong_refuted : exists c s x l, state_ok c s /\ word_ok c s x /\ word_ok c s l /\
  exists rs, (do r <- Member_2 10 10 c s x l; explore (Member_Alt_0 10 10 c) 10 r) = Ret (rs, false) /\
  exists s' nu, In (Ok s') rs /\ forall j, ~ is_member j (view s' nu x) (view s' nu l).
Proof.
  exists cfg0, ex_wrong, (LST 10), (LST 18).
  split; [apply state_okb; reflexivity|]. split; [apply wf_wordb_ok; reflexivity|]. split; [apply wf_wordb_ok; reflexivity|].
  eexists. split; [vm_compute; reflexivity|].
  eexists. exists (fun _ => tatom 0). split; [right; left; reflexivity|].
  match goal with |- context [view ?s' _ (LST 18)] => set (s1 := s') end. set (nu := fun _ : addr => tatom 0).
  assert (V5 : same_tree (view s1 nu (REF 5)) (tatom 0)) by (apply (lab_unbound (mm (hm s1)) nu 5); reflexivity).
  assert (V4 : same_tree (view s1 nu (REF 4)) (tint 1)).
  { eapply same_tree_trans; [apply (view_derefs _ nu (REF 4) (INT 1))|apply lab_int_tree].
    eapply drf_step; [reflexivity|discriminate|]. apply drf_other. discriminate. }
  assert (Vx : same_tree (view s1 nu (LST 10)) (tcons (view s1 nu (REF 4)) (view s1 nu (REF 4))))
    by (apply (lab_lst (mm (hm s1)) nu 10); reflexivity).
  assert (Ve : same_tree (view s1 nu (LST 16)) (tcons (view s1 nu (REF 5)) (view s1 nu (LST 14))))
    by (apply (lab_lst (mm (hm s1)) nu 16); reflexivity).
  assert (Vl : same_tree (view s1 nu (LST 18)) (tcons (view s1 nu (LST 16)) (view s1 nu (REF 5))))
    by (apply (lab_lst (mm (hm s1)) nu 18); reflexivity).
  intros [|j] H.
  - apply (member_hd _ _ _ _ Vl) in H.
    apply (tint_not_atom 1 0). eapply same_tree_trans; [apply same_tree_sym; exact V4|].
    eapply same_tree_trans; [|exact V5]. eapply tcons_hd. eapply same_tree_trans; [apply same_tree_sym; exact Vx|].
    eapply same_tree_trans; [exact H|exact Ve].
  - apply (member_S _ _ _ _ _ Vl) in H. apply member_cons in H as (h & t & Q).
    eapply tcons_not_atom. eapply same_tree_trans; [apply same_tree_sym; exact Q|exact V5].
Qed.

(** memberchk(X, L), X a variable of the local stack: the cell put at the end of L refers
    to the local stack *)
Theorem C34_memberchk_local_refuted : exists c s x l s', state_ok c s /\ word_ok c s x /\ word_ok c s l /\
  Memberchk_2 10 10 c s x l = Ret (Ok s') /\ ~ state_ok c s'.
Proof.
  set (s := ex_state [(5, Word (REF 5)); (101, Word (REF 101))] 30).
  set (s' := match Memberchk_2 10 10 cfg0 s (REF 101) (REF 5) with Ret (Ok s') => s' | _ => s end).
  exists cfg0, s, (REF 101), (REF 5), s'.
  split; [apply state_okb; reflexivity|]. split; [apply wf_wordb_ok; reflexivity|]. split; [apply wf_wordb_ok; reflexivity|].
  split; [reflexivity|]. intros (W & _).
  assert (Q : mm (hm s') 30 = Some (Word (REF 101))) by reflexivity.
  destruct (wf_ref _ _ W 30 101 Q) as [P|P]; cbn in P; lia.
Qed.

(** ** Examples *)
Definition show (ws : list word) (x : list (lres hst) * bool) : list (lres (list (option term))) * bool :=
  (map (fun r => match r with
    | Ok s => Ok (map (term_of 20 (mm (hm s))) ws)
    | No => No | Fatal => Fatal | Fd => Fd | Err => Err end) (fst x), snd x).
Definition out (ws : list word) (o : outcome (list (lres hst) * bool)) := do x <- o; Ret (show ws x).
Notation L l := (Some (list_term 91 l)).

(** variables X = 1, Y = 2; the list [a,b] at 10, the partial list [a|X] at 14, the closed list
    [Y,7,b] at 20 *)
Definition exl := ex_state [(1, Word (REF 1)); (2, Word (REF 2));
  (10, Word (ATM 97)); (11, Word (LST 12)); (12, Word (ATM 98)); (13, Word (ATM 91));
  (14, Word (ATM 97)); (15, Word (REF 1));
  (20, Word (REF 2)); (21, Word (LST 22)); (22, Word (INT 7)); (23, Word (LST 24)); (24, Word (ATM 98)); (25, Word (ATM 91))] 40.
Example C34_ex_state : state_ok cfg0 exl /\ word_ok cfg0 exl (LST 10) /\ word_ok cfg0 exl (LST 14) /\
  word_ok cfg0 exl (LST 20) /\ word_ok cfg0 exl (REF 1) /\ word_ok cfg0 exl (REF 2) /\ closed_list (mm (hm exl)) (LST 20).
Proof.
  split; [apply state_okb; reflexivity|]. repeat (split; [apply wf_wordb_ok; reflexivity|]).
  do 3 (eapply cl_cell; [apply drf_other; discriminate|reflexivity|]).
  apply (cl_end _ _ (ATM 91)); try discriminate. apply drf_other. discriminate.
Qed.
(** append(X, Y, [a,b]) *)
Example C34_append_ex : out [REF 1; REF 2]
  (do r <- Append_3 91 20 20 cfg0 exl (REF 1) (REF 2) (LST 10); explore (Append_Alt_0 91 20 cfg0) 5 r) =
  Ret ([Ok [L []; L [TAtm 97; TAtm 98]]; Ok [L [TAtm 97]; L [TAtm 98]]; Ok [L [TAtm 97; TAtm 98]; L []]], false).
Proof. vm_compute. reflexivity. Qed.
(** append(X, [b], [a,b]): deterministic; append([a|X], [], Y) *)
Example C34_append_ex2 : out [REF 1]
  (do r <- Append_3 91 20 20 cfg0 exl (REF 1) (LST 12) (LST 10); explore (Append_Alt_0 91 20 cfg0) 5 r) =
  Ret ([Ok [L [TAtm 97]]], false) /\
  out [REF 1; REF 2]
  (do r <- Append_3 91 20 20 cfg0 exl (LST 14) (ATM 91) (REF 2); explore (Append_Alt_0 91 20 cfg0) 1 r) =
  Ret ([Ok [L []; L [TAtm 97]]; Ok [L [TVar 42]; L [TAtm 97; TVar 42]]], true).
Proof. split; vm_compute; reflexivity. Qed.
(** reverse([a|X], Y), reverse(X, [a,b]), reverse(a, X) *)
Example C34_reverse_ex : out [REF 1; REF 2]
  (do r <- Reverse_2 91 20 20 cfg0 exl (LST 14) (REF 2); explore (Reverse_Alt_0 91 20 cfg0) 1 r) =
  Ret ([Ok [L []; L [TAtm 97]]; Ok [L [TVar 42]; L [TVar 42; TAtm 97]]], true) /\
  out [REF 1]
  (do r <- Reverse_2 91 20 20 cfg0 exl (REF 1) (LST 10); explore (Reverse_Alt_0 91 20 cfg0) 1 r) =
  Ret ([Ok [L [TAtm 98; TAtm 97]]], false) /\
  out [REF 1]
  (do r <- Reverse_2 91 20 20 cfg0 exl (ATM 97) (REF 1); explore (Reverse_Alt_0 91 20 cfg0) 1 r) =
  Ret ([No], false).
Proof. repeat split; vm_compute; reflexivity. Qed.
(** length([a|X], Y), length([a|X], 2), length([a,b], 1), length([a|X], X), length(a, X) *)
Example C34_length_ex : out [REF 1; REF 2]
  (do r <- Length_2 91 20 20 cfg0 false exl (LST 14) (REF 2); explore (Length_Alt_0 91 20 cfg0) 1 r) =
  Ret ([Ok [L []; Some (TInt 1)]; Ok [L [TVar 40]; Some (TInt 2)]], true) /\
  out [REF 1]
  (do r <- Length_2 91 20 20 cfg0 false exl (LST 14) (INT 2); explore (Length_Alt_0 91 20 cfg0) 1 r) =
  Ret ([Ok [L [TVar 40]]], false) /\
  (do r <- Length_2 91 20 20 cfg0 false exl (LST 10) (INT 1); explore (Length_Alt_0 91 20 cfg0) 1 r) = Ret ([No], false) /\
  (do r <- Length_2 91 20 20 cfg0 false exl (LST 14) (REF 1); explore (Length_Alt_0 91 20 cfg0) 1 r) = Ret ([Err], false) /\
  (do r <- Length_2 91 20 20 cfg0 false exl (ATM 97) (REF 1); explore (Length_Alt_0 91 20 cfg0) 1 r) = Ret ([Err], false).
Proof. repeat split; vm_compute; reflexivity. Qed.
(** nth0(2, [a|X], Y), nth1(1, [a,b], Y), nth1(0, [a,b], Y) *)
Example C34_nth_ex : out [REF 1; REF 2] (do r <- Nth0_3 20 cfg0 exl 2 (LST 14) (REF 2) 0; Ret ([r], false)) =
  Ret ([Ok [Some (TCmp ATOM_DOT [TVar 40; TCmp ATOM_DOT [TVar 2; TVar 43]]); Some (TVar 2)]], false) /\
  out [REF 2] (do r <- Nth0_3 20 cfg0 exl 1 (LST 10) (REF 2) 1; Ret ([r], false)) = Ret ([Ok [Some (TAtm 97)]], false) /\
  Nth0_3 20 cfg0 exl 0 (LST 10) (REF 2) 1 = Ret No.
Proof. repeat split; vm_compute; reflexivity. Qed.
(** memberchk(b, [a|X]) binds X to [b|_]; memberchk(b, [Y,7,b]) binds Y *)
Example C34_memberchk_ex : out [REF 1] (do r <- Memberchk_2 20 20 cfg0 exl (ATM 98) (LST 14); Ret ([r], false)) =
  Ret ([Ok [Some (TCmp ATOM_DOT [TAtm 98; TVar 41])]], false) /\
  out [REF 2] (do r <- Memberchk_2 20 20 cfg0 exl (ATM 98) (LST 20); Ret ([r], false)) = Ret ([Ok [Some (TAtm 98)]], false) /\
  Memberchk_2 20 20 cfg0 exl (INT 3) (LST 10) = Ret No.
Proof. repeat split; vm_compute; reflexivity. Qed.
(** member(b, [Y,7,b]): twice, Y = b and Y unbound *)
Example C34_member_ex : out [REF 2]
  (do r <- Member_2 20 20 cfg0 exl (ATM 98) (LST 20); explore (Member_Alt_0 20 20 cfg0) 5 r) =
  Ret ([Ok [Some (TAtm 98)]; Ok [Some (TVar 2)]], false).
Proof. vm_compute. reflexivity. Qed.

Print Assumptions C34_append.
Print Assumptions C34_reverse.
Print Assumptions C34_length.
Print Assumptions C34_nth.
Print Assumptions C34_memberchk.
Print Assumptions C34_member.
Print Assumptions C34_member_lost_refuted.
Print Assumptions C34_member_wrong_refuted.
Print Assumptions C34_memberchk_local_refuted.
