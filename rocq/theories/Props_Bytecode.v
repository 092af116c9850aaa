(** C67: the byte-code of a consulted clause does what its instructions do.
    C68: the registers of the call of a consulted predicate. *)
Require Import ZArith List Bool Lia.
Require Import Verif.RegAlloc_Model Verif.Clause_Model Verif.Props_RegAlloc.
Require Import Verif.Bytecode_Model Verif.Bytecode_Spec Verif.Bytecode_Proofs.
Import ListNotations.
Open Scope Z_scope.

(** ** C67 *)
(** [t]: the predicates when the clause is loaded, [t']: when it runs; [b]: the buffer as it was left by
    the clauses before.  The caller is given as [cf]/0, see below *)
Theorem C67_clause : forall K t t' cf cn l b s, stable t t' -> atom_fits cf ->
  Forall fits l -> Exists (fun i => closes i = true) l -> 1 <= blocks b ->
  exists b', Emit t cf cn l (Start_Emit b) = Some b' /\
    same_out K (encode t cf cn) (written b')
      (Emulate_Byte_Code K (S (length l)) t' (written b') 0 s) (wam_run K t' cf 0 l s).
Proof.
  intros K t t' cf cn l b s T C F X B.
  destruct (emit_ok t cf cn l (Start_Emit b)) as (b' & E1 & E2 & _ & _); [cbn; lia|cbn; unfold BC_BLOCK_SIZE; lia|].
  exists b'. split; [exact E1|]. apply run_ok; auto.
Qed.
(** after a call, from the saved position on *)
Theorem C67_continue : forall K t t' cf cn l bc p s, stable t t' -> atom_fits cf ->
  Forall fits l -> Exists (fun i => closes i = true) l -> cont_of (encode t cf cn) bc (Some p) (Some l) ->
  same_out K (encode t cf cn) bc (Emulate_Byte_Code K (S (length l)) t' bc p s) (wam_run K t' cf 0 l s).
Proof. intros. now apply run_ok. Qed.
(** the saved word gives the position and the flag of the debugger back; the code is at an address
    which is a multiple of 4 *)
Theorem C67_saved_position : forall base p d, base mod 4 = 0 -> 0 <= base -> restore_pc base (save_pc base p d) = (Z.of_nat p, d).
Proof. exact pc_ok. Qed.
(** no word is written outside of the buffer, whatever the instructions *)
Theorem C67_buffer : forall t cf cn l b, 1 <= blocks b ->
  exists b', Emit t cf cn l (Start_Emit b) = Some b' /\ written b' = flat_map (encode t cf cn) l /\
    1 <= blocks b' /\ Z.of_nat (length (written b')) <= blocks b' * BC_BLOCK_SIZE.
Proof.
  intros t cf cn l b B. destruct (emit_ok t cf cn l (Start_Emit b)) as (b' & E1 & E2 & E3 & E4); [cbn; lia|cbn; unfold BC_BLOCK_SIZE; lia|].
  exists b'. cbn [Start_Emit blocks written app] in *. repeat split; auto; lia.
Qed.
(** the code of a clause which is native code *)
Theorem C67_wrapper : forall K t' f n p b s, 0 <= p < 2 ^ 64 -> 0 <= n < 2 ^ 24 -> 1 <= blocks b ->
  exists b', Execute_Wrapper f n p b = Some b' /\ Emulate_Byte_Code K 1 t' (written b') 0 s = Jumps p s None.
Proof.
  intros K t' f n p b s P N B. unfold Execute_Wrapper. rewrite put_ok; cbn [Start_Emit blocks written length assemble app plus]; [|lia|unfold BC_BLOCK_SIZE; lia].
  eexists. split; [reflexivity|]. cbn [written Emulate_Byte_Code]. unfold bc_step. cbn [nth_error]. cbv zeta.
  change (2 ^ 24) with 16777216 in N. rewrite word2 by (try apply code_range; lia).
  destruct (fields2 (code EXECUTE_NATIVE) n (code_range _) N) as (F1 & F2). rewrite F1, of_code_code, (of_u_u p P). reflexivity.
Qed.

(** ** Where it fails *)
(** The caller of an unknown predicate is reported with arity 0: the arity is in the highest 10 bits of a word of 64 bits
    (Functor_Arity) of which 32 are kept *)
Theorem C67_caller_refuted : exists K t cf cn l s, stable t t /\ atom_fits cf /\ 0 <= cn <= 255 /\ Forall fits l /\
  ~ same_out K (encode t cf cn) (flat_map (encode t cf cn) l)
      (Emulate_Byte_Code K (S (length l)) t (flat_map (encode t cf cn) l) 0 s) (wam_run K t cf cn l s).
Proof.
  set (K := Machine unit unit (fun _ _ => tt) (fun _ _ _ => tt) (fun _ _ => tt) (fun _ _ _ => tt) (fun _ _ _ => None)
    (fun _ _ _ => None) (fun _ _ _ => None) (fun _ _ _ => None) (fun _ _ => None) (fun _ _ => None) (fun _ _ _ _ => None)
    (fun _ => (tt, tt)) (fun _ _ => (tt, tt)) (fun _ _ => (tt, tt)) (fun _ => tt) (fun _ => tt) (fun _ _ => (tt, tt)) tt
    (fun _ => (tt, tt)) (fun _ _ _ => (tt, tt)) (fun _ _ => None) (fun _ => (tt, tt)) (fun _ _ => tt) (fun _ _ => None) (fun _ _ => None)
    (fun _ _ => None) (fun _ _ => None) (fun _ => None) (fun _ => None) (fun _ _ _ => None) (fun _ _ => tt) (fun _ => tt)
    (fun _ => tt) (fun _ _ => tt) (fun _ _ => tt)).
  exists K, (fun _ _ => None), 300, 2, [execute 301 1], (tt : M K).
  split; [intros f n p; split; [tauto|discriminate]|]. split; [split; [lia|reflexivity]|]. split; [lia|].
  split; [constructor; [|constructor]; split; [split; [lia|reflexivity]|lia]|].
  vm_compute. intros (_ & _ & _ & Q). discriminate Q.
Qed.
(** The clause p(f(g(a),g(a),g(a),[]), h([]), ..., h([])) with 255 arguments: an instruction of its code is
    get_structure(g/1, 256), and its byte-code is the one of get_structure(g/1, 0) *)
Definition ga : tm := Tf 7 [Tc (Catm 3)].
Definition big_clause : clause := Clause (Tf 8 [ga; ga; ga; Tc Cnil] :: repeat (Tf 6 [Tc Cnil]) 254) [].
Theorem C67_register_refuted : exists cl co l, length (c_head cl) = 255%nat /\ compile (Flags true true false) cl = Some co /\
  final false 2 co = Some l /\ In (get_arg (i_get_structure 7 1) (A 256)) l /\
  forall t cf cn, encode t cf cn (get_structure 7 1 256) = encode t cf cn (get_structure 7 1 0).
Proof.
  set (o := compile (Flags true true false) big_clause). set (co := match o with Some l => l | None => [] end).
  set (fo := final false 2 co). set (l := match fo with Some l => l | None => [] end).
  exists big_clause, co, l. split; [reflexivity|]. split; [vm_compute; reflexivity|]. split; [vm_compute; reflexivity|].
  split; [vm_compute; tauto|reflexivity].
Qed.
(** a clause with more than 65533 permanent variables: y(65536) is taken for y(0), where the continuation is saved *)
Theorem C67_permanent_refuted : exists y x0, x_fits x0 /\ 0 <= y < 2 ^ 24 /\ forall t cf cn,
  encode t cf cn (get_variable (RY y) x0) = encode t cf cn (get_variable (RY 0) x0).
Proof. exists 65536, 5. split; [split; lia|]. split; [lia|reflexivity]. Qed.

(** ** C68 *)
(** the first clause: only the registers after the arguments change, none of the engine when there are at most 254
    arguments; each other clause is tried with the same arguments, cut register and debug flag *)
Theorem C68_arguments : forall b arity choice d b' w, (arity <= 254)%nat -> Emulate_Pred b arity choice d = (b', w) ->
  (forall i, 0 <= i < Z.of_nat arity \/ NB_OF_X_REGS <= i -> b' i = b i) /\ b' (Z.of_nat arity) = choice /\
  forall b1, exists b2, Emulate_Pred_Alt b1 arity w = Some (b2, d) /\ (forall i, 0 <= i < Z.of_nat arity -> b2 i = b i) /\
    b2 (Z.of_nat arity) = choice /\ (forall i, Z.of_nat arity < i -> b2 i = b1 i).
Proof.
  intros b arity choice d b' w L E. destruct (emulate_pred_ok b arity choice d b' w E) as (Q1 & Q2 & Q3).
  split; [intros i [R|R]; apply Q1; unfold NB_OF_X_REGS in *; lia|]. split; [exact Q2|].
  intros b1. destruct (Q3 b1) as (b2 & R1 & R2 & R3 & R4). exists b2. repeat split; auto.
Qed.
(** With 255 arguments (MAX_ARITY) the flag of the debugger is written into the first register of the
    engine: HB1 on x86_64 with gcc (TR, B and H are machine registers), else TR *)
Theorem C68_arity_255_refuted : exists b choice d b' w, Emulate_Pred b 255 choice d = (b', w) /\ b' NB_OF_X_REGS <> b NB_OF_X_REGS.
Proof.
  exists (fun _ => 8), 3, 0. eexists. eexists. split; [reflexivity|]. vm_compute. discriminate.
Qed.

(** ** Examples *)
(** a machine with X registers only; get_atom and get_integer compare *)
Definition demo : machine := Machine (Z -> Z) Z (fun s => s) (fun s x v i => if i =? x then v else s i)
  (fun s y => s (1000 + y)) (fun s y v i => if i =? 1000 + y then v else s i)
  (fun s a b => if a =? b then Some s else None) (fun s a v => if v =? a then Some s else None)
  (fun s a v => if v =? a then Some s else None) (fun s a v => if v =? a then Some s else None)
  (fun s v => None) (fun s v => None) (fun s f n v => if v =? 1000 * f + n then Some s else None)
  (fun s => (7, s)) (fun s y => (1000 + y, s)) (fun s v => (v, s)) (fun a => a) (fun l => l) (fun s d => (d, s)) 0
  (fun s => (5, s)) (fun s f n => (1000 * f + n, s)) (fun s v => Some (v + 1, s)) (fun s => (9, s)) (fun s _ => s)
  (fun s _ => Some s) (fun s _ => Some s) (fun s _ => Some s) (fun s _ => Some s) (fun s => Some s) (fun s => Some s) (fun s _ _ => Some s)
  (fun s _ => s) (fun s => s) (fun _ => 77) (fun s _ => s) (fun s _ => s).
Definition preds : table := fun f n => if f =? 40 then Some (Pred true (2 ^ 40 + 5)) else if f =? 41 then Some (Pred false 0) else None.
Definition ex_code : list wam :=
  [allocate 5; get_atom 70000 0; get_variable (RY 3) 1; put_integer (-5) 0; call 40 1; put_value (RY 3) 0; put_atom 12 1; deallocate; execute 41 2].
Definition regs : Z -> Z := fun i => if i =? 0 then 70000 else 33.
(** what is visible of a result *)
Definition shown {R} (o : out (M demo) R) : option (Z * Z * Z * option R) :=
  match o with Jumps p s k => Some (p, s 0, s 1, k) | Emulates f n s k => Some (f, s 0, s 1, k) | _ => None end.
Example C67_ex_fits : stable preds preds /\ Forall fits ex_code /\ Exists (fun i => closes i = true) ex_code.
Proof.
  split; [|split].
  - intros f n p. split; [tauto|]. unfold preds. destruct (f =? 40); [|destruct (f =? 41)]; intros E; try discriminate E.
    injection E as <-. split; [lia|reflexivity].
  - repeat constructor; try lia; try reflexivity; cbn; lia.
  - do 8 apply Exists_cons_tl. apply Exists_cons_hd. reflexivity.
Qed.
Example C67_ex : flat_map (encode preds 1 2) ex_code =
    [42 + 256 * 5; 5; 70000; 1 + 256 * 1 + 65536 * 3; 21; 2 ^ 32 - 5; 2 ^ 32 - 1; 45 + 256; 40; 5; 256; 16 + 65536 * 3; 18 + 256 + 65536 * 12; 43;
     46 + 512; 41; 1] /\
  shown (Emulate_Byte_Code demo 20 preds (flat_map (encode preds 1 2) ex_code) 0 regs) = Some (2 ^ 40 + 5, -5, 33, Some 11%nat) /\
  shown (Emulate_Byte_Code demo 20 preds (flat_map (encode preds 1 2) ex_code) 11 regs) = Some (41, 33, 12, None) /\
  shown (wam_run demo preds 1 0 ex_code regs) = Some (2 ^ 40 + 5, -5, 33, Some (skipn 5 ex_code)).
Proof. vm_compute. repeat split. Qed.
Example C67_pc_ex : restore_pc 4096 (save_pc 4096 11 true) = (11, true) /\ save_pc 4096 11 true = 4141.
Proof. split; reflexivity. Qed.
Example C68_ex : let (b, w) := Emulate_Pred (fun i => 10 * i) 2 5 1 in w = [0; 10; 5; 1] /\
  match Emulate_Pred_Alt (fun _ => 99) 2 w with Some (b2, d) => map b2 [0; 1; 2; 3] = [0; 10; 5; 99] /\ d = 1 | None => False end.
Proof. vm_compute. repeat split. Qed.

Print Assumptions C67_clause.
Print Assumptions C67_continue.
Print Assumptions C67_saved_position.
Print Assumptions C67_buffer.
Print Assumptions C67_wrapper.
Print Assumptions C67_caller_refuted.
Print Assumptions C67_register_refuted.
Print Assumptions C67_permanent_refuted.
Print Assumptions C68_arguments.
Print Assumptions C68_arity_255_refuted.
