(** C57: a term written with quoted(true) and ignore_ops(true) is read back.
    C58: reading is free of undefined behaviour on texts without too long names, escape
    sequences and tokens. *)
Require Import ZArith List Bool Lia.
Require Import Verif.Heap_Model Verif.Lex_Model Verif.Write_Model Verif.Lex_Spec
  Verif.Lex_Proofs Verif.Write_Proofs Verif.Parse_Model Verif.Parse_Spec Verif.Parse_Proofs Verif.Reader_Proofs.
Import ListNotations.
Open Scope Z_scope.

(** - is a prefix and an infix operator, dynamic a prefix one, | and , are infix, * is postfix *)
Definition ops (n : list Z) (t : optype) : option opinf :=
  match n, t with
  | [45], PREFIX => Some (OpInf 200 0 200)
  | [45], INFIX => Some (OpInf 500 500 499)
  | [100], PREFIX => Some (OpInf 1150 0 1149)
  | [124], INFIX => Some (OpInf 1100 1099 1100)
  | [44], INFIX => Some (OpInf 1000 999 1000)
  | [42], POSTFIX => Some (OpInf 100 100 0)
  | _, _ => None
  end.
Definition ex_lx : env := Env (fun _ => false) (fun _ => false) (fun c => c) false false false false.
Definition ex_P : penv := PEnv ex_lx ops AS_CODES AS_ATOM.
Definition ex_pr : Z -> bool := fun _ => false.

(** the names of the variables *)
Lemma vnames : forall vs, Forall (fun n => 0 <= n < 2 ^ 31) vs ->
  Forall2 (fun n s => exists d, s = 95 :: d /\ decimal d n) vs (map vname vs).
Proof.
  induction vs as [|n vs IH]; intros F; [constructor|]. inversion F as [|? ? F1 F2]; subst. cbn [map]. constructor.
  - exists (dec n). split; [reflexivity|]. apply dec_decimal. change (2 ^ 31) with 2147483648 in F1. lia.
  - apply IH. exact F2.
Qed.
Lemma term_ok_vars : forall t, term_ok t -> Forall (fun n => 0 <= n < 2 ^ 31) (vars t).
Proof.
  induction t as [n|s|n|a b IHa IHb|f l IH] using wterm_ind'; intros OK; inversion OK; subst; cbn [vars].
  - constructor; [assumption|constructor].
  - constructor.
  - constructor.
  - apply Forall_app. split; auto.
  - apply Forall_forall. intros x Hx. apply in_flat_map in Hx. destruct Hx as (u & Hu & Hx).
    rewrite Forall_forall in IH. match goal with F : Forall term_ok l |- _ => rewrite Forall_forall in F; specialize (IH u Hu (F u Hu)) end.
    rewrite Forall_forall in IH. apply IH. exact Hx.
Qed.
Lemma num_vars : forall t, term_ok t -> Forall (fun n => 0 <= n < 2 ^ 31) (rev (snd (num t []))).
Proof.
  intros t OK. apply Forall_rev. apply Forall_forall. intros x Hx. apply num_incl in Hx. rewrite app_nil_r in Hx.
  apply term_ok_vars in OK. rewrite Forall_forall in OK. apply OK. exact Hx.
Qed.

(** With every table of operators and all flags, in every locale without character conversion:
    the term, a full stop and anything are written; reading gives the same term up to the
    names of the variables, and reads nothing of what follows the full stop. *)
Theorem C57_read_back : forall P pr sa t rest,
  no_conv (lx P) -> term_ok t -> Z.of_nat (length (nodup Z.eq_dec (vars t))) <= 1048576 ->
  Forall (fun c => 0 <= c <= 255) rest ->
  exists p vs names f0,
    NoDup vs /\ same vs t p /\
    Forall2 (fun n s => exists d, s = 95 :: d /\ decimal d n) vs names /\
    forall fuel, (f0 <= fuel)%nat ->
    let (txt, st) := Write_Term (lx P) pr sa t in
    Read_Term fuel P true (txt ++ fst (Write_A_Full_Stop (lx P) st) ++ rest) = Ret (Some (p, names, 10 :: rest)).
Proof.
  intros P pr sa t rest NC OK LV BR.
  destruct (read_dot P (lx P) pr sa t rest eq_refl NC OK LV BR) as (f0 & R).
  exists (fst (num t [])), (rev (snd (num t []))), (map vname (rev (snd (num t [])))), f0.
  split; [apply NoDup_rev; apply num_nodup; constructor|]. split; [apply (num_same t [] [])|].
  split; [apply vnames; apply num_vars; exact OK|exact R].
Qed.

(** The same for a text without full stop (read_term_from_atom/3, ...). *)
Theorem C57_read_back_eof : forall P pr sa t,
  no_conv (lx P) -> term_ok t -> Z.of_nat (length (nodup Z.eq_dec (vars t))) <= 1048576 ->
  exists p vs names f0,
    NoDup vs /\ same vs t p /\
    Forall2 (fun n s => exists d, s = 95 :: d /\ decimal d n) vs names /\
    forall fuel, (f0 <= fuel)%nat ->
    Read_Term fuel P false (fst (Write_Term (lx P) pr sa t)) = Ret (Some (p, names, [])).
Proof.
  intros P pr sa t NC OK LV.
  destruct (read_eof P (lx P) pr sa t eq_refl NC OK LV) as (f0 & R).
  exists (fst (num t [])), (rev (snd (num t []))), (map vname (rev (snd (num t [])))), f0.
  split; [apply NoDup_rev; apply num_nodup; constructor|]. split; [apply (num_same t [] [])|].
  split; [apply vnames; apply num_vars; exact OK|exact R].
Qed.

(** f(-,-(1),-1,'.'(a,_7),{},'a b',','(_7,_3),'.','[]'(d)) followed by a full stop and x *)
Definition ex_t : wterm :=
  WStc [102] [WAtom [45]; WStc [45] [WInt 1]; WInt (-1); WList (WAtom [97]) (WVar 7); WAtom [123; 125]; WAtom [97; 32; 98];
              WStc [44] [WVar 7; WVar 3]; WAtom [46]; WStc [91; 93] [WAtom [100]]].
Definition ex_p : pterm :=
  PStc [102] [PAtom [45]; PStc [45] [PInt 1]; PInt (-1); PList (PAtom [97]) (PVar 0); PAtom [123; 125]; PAtom [97; 32; 98];
              PStc [44] [PVar 0; PVar 1]; PAtom [46]; PStc [91; 93] [PAtom [100]]].
Example C57_read_back_ex :
  no_conv (lx ex_P) /\ term_ok ex_t /\ Z.of_nat (length (nodup Z.eq_dec (vars ex_t))) <= 1048576 /\
  fst (Write_Term ex_lx ex_pr false ex_t) =
    [102; 40; 45; 44; 45; 40; 49; 41; 44; 45; 49; 44; 39; 46; 39; 40; 97; 44; 95; 55; 41; 44; 123; 125; 44; 39; 97; 32; 98; 39;
     44; 39; 44; 39; 40; 95; 55; 44; 95; 51; 41; 44; 39; 46; 39; 44; 91; 93; 40; 100; 41; 41] /\
  Read_Term 100 ex_P true (fst (Write_Term ex_lx ex_pr false ex_t) ++ [46; 10; 120]) =
    Ret (Some (ex_p, [[95; 55]; [95; 51]], [10; 120])) /\
  same [7; 3] ex_t ex_p.
Proof.
  split; [intros c; reflexivity|].
  split.
  { change (2 ^ 60) with 1152921504606846976.
    unfold ex_t. repeat match goal with
    | |- term_ok (WVar _) => constructor; lia
    | |- term_ok (WInt _) => constructor; change (2 ^ 60) with 1152921504606846976; lia
    | |- term_ok (WAtom _) => constructor; [repeat (constructor; [lia|]); constructor|unfold fits; cbn [length]; lia]
    | |- term_ok (WList _ _) => constructor
    | |- term_ok (WStc _ _) => constructor; [repeat (constructor; [lia|]); constructor|unfold fits; cbn [length]; lia|cbn [length]; lia|
                                 first [left; discriminate|right; discriminate]|]
    | |- Forall term_ok _ => constructor
    end. }
  split; [cbn; lia|]. split; [vm_compute; reflexivity|]. split; [vm_compute; reflexivity|].
  unfold ex_t, ex_p. repeat first [reflexivity|constructor].
Qed.

(** * C58 *)

(** Every text is read, in a number of steps linear in its length, to a term or to a syntax
    error: the scanner and the parser always terminate and their buffers are not exceeded. *)
Theorem C58_read_total : forall P dot i fuel,
  no_conv (lx P) -> Forall (fun c => 0 <= c <= 255) i ->
  short_escapes i -> short_names (lx P) i -> Z.of_nat (length i) < 1048576 ->
  (4 * length i + 1 <= fuel)%nat ->
  exists r, Read_Term fuel P dot i = Ret r.
Proof.
  intros P dot i fuel NC B SE SN L LF. apply Read_Term_total; [exact NC| |exact LF].
  split; [exact B|]. split; [exact SE|]. split; [exact SN|exact L].
Qed.
(** a test for [short_escapes] *)
Definition is_escape_digit (c : Z) : bool :=
  (48 <=? c) && (c <=? 57) || (97 <=? c) && (c <=? 102) || (65 <=? c) && (c <=? 70) || (c =? 120) || (c =? 0).
Fixpoint run (n : nat) (r : list Z) : bool :=
  match n, r with
  | O, _ => true
  | S n, c :: r => is_escape_digit c && run n r
  | S _, [] => false
  end.
Fixpoint check_escapes (l : list Z) : bool :=
  match l with
  | [] => true
  | c :: r => (negb (c =? 92) || negb (run 9 r)) && check_escapes r
  end.
Lemma run_true : forall w n l, (n <= length l)%nat -> Forall escape_digit l -> run n (l ++ w) = true.
Proof.
  intros w. induction n as [|n IHn]; intros [|c l] Ln Fl; cbn [length] in Ln; try reflexivity; [lia|].
  cbn [app run]. inversion Fl as [|? ? F1 F2]; subst. rewrite IHn by (assumption || lia). rewrite andb_true_r.
  unfold escape_digit in F1. unfold is_escape_digit.
  repeat rewrite ?orb_true_iff, ?andb_true_iff, ?Z.leb_le, ?Z.eqb_eq. lia.
Qed.
Lemma short_escapes_dec : forall i, check_escapes i = true -> short_escapes i.
Proof.
  intros i E u v w -> F. revert E. induction u as [|x u IH]; intros E.
  - cbn [app check_escapes] in E. apply andb_prop in E. destruct E as [E _]. change (92 =? 92) with true in E. cbn [negb orb] in E.
    apply negb_true_iff in E. destruct (Nat.le_gt_cases (length v) 8) as [L|L]; [exact L|exfalso].
    rewrite run_true in E; [discriminate E|lia|exact F].
  - apply IH. cbn [app check_escapes] in E. apply andb_prop in E. apply E.
Qed.
(** a list with the tail "a\x41\" *, and the same text after an open parenthesis *)
Example C58_read_total_ex :
  let i := [91; 45; 32; 88; 32; 124; 32; 34; 97; 92; 120; 52; 49; 92; 34; 32; 42; 93; 46; 10] in
  no_conv (lx ex_P) /\ short_escapes i /\ short_names (lx ex_P) i /\
  Read_Term (4 * length i + 1) ex_P true i =
    Ret (Some (PList (PStc [45] [PVar 0]) (PStc [42] [PList (PInt 97) (PList (PInt 65) (PAtom [91; 93]))]), [[88]], [10])) /\
  Read_Term (4 * length i + 1) ex_P true (40 :: i) = Ret None.
Proof.
  cbv zeta. split; [intros c; reflexivity|]. split; [apply short_escapes_dec; reflexivity|].
  split; [intros u v w E _; apply (f_equal (@length Z)) in E; rewrite !app_length in E; cbn [length] in E; lia|].
  split; vm_compute; reflexivity.
Qed.

(** The name of a variable is copied without check to an array of 1024 characters. *)
Theorem C58_var_name_refuted : exists P i, no_conv (lx P) /\ Forall (fun c => 0 <= c <= 255) i /\ short_escapes i /\
  length i = 1026%nat /\ Read_Term 100 P true i = UB.
Proof.
  exists ex_P, (repeat 65 1024 ++ [46; 10]). split; [intros c; reflexivity|].
  split; [apply Forall_forall; intros x Hx; apply in_app_or in Hx; destruct Hx as [Hx|[<-|[<-|[]]]]; [apply repeat_spec in Hx|..]; lia|].
  split; [apply short_escapes_dec; vm_compute; reflexivity|]. split; [reflexivity|]. vm_compute. reflexivity.
Qed.

(** A numeric escape sequence of 9 digits overflows a C int. *)
Theorem C58_escape_refuted : exists P i, no_conv (lx P) /\ Forall (fun c => 0 <= c <= 255) i /\ short_names (lx P) i /\
  length i = 16%nat /\ Read_Term 100 P true i = UB.
Proof.
  exists ex_P, [39; 92; 120; 102; 102; 102; 102; 102; 102; 102; 102; 102; 92; 39; 46; 10]. split; [intros c; reflexivity|].
  split; [repeat (constructor; [lia|]); constructor|].
  split; [intros u v w E _; apply (f_equal (@length Z)) in E; rewrite !app_length in E; cbn [length] in E; lia|].
  split; [reflexivity|]. vm_compute. reflexivity.
Qed.

Print Assumptions C57_read_back.
Print Assumptions C57_read_back_eof.
Print Assumptions C58_read_total.
Print Assumptions C58_var_name_refuted.
Print Assumptions C58_escape_refuted.
