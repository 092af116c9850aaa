(** C60: the compilation of a clause.  Theorems and examples. *)
Require Import List Bool Arith Lia.
Require Import Verif.RegAlloc_Model Verif.RegAlloc_Spec Verif.RegAlloc_Graph Verif.Props_RegAlloc Verif.Clause_Model Verif.Clause_Spec Verif.Clause_Exec Verif.Clause_Shape Verif.Clause_Body Verif.Clause_Main Verif.Clause_Top.
Import ListNotations.

(** app([X|L],M,[X|N]) :- app(L,M,N). *)
Definition app_clause : clause :=
  Clause [Tf dot [Tv 0; Tv 1]; Tv 2; Tf dot [Tv 0; Tv 3]] [Goal false 9 [Tv 1; Tv 2; Tv 3]].
(** p(f(X,g(Y),_),Y) :- var(X), q(X,Z), r(h(Z,k(W)),Y), s(W,Z,2.5). *)
Definition chunk_clause : clause :=
  Clause [Tf 5 [Tv 0; Tf 6 [Tv 1]; Tv 2]; Tv 1]
    [Goal true 1 [Tv 0]; Goal false 2 [Tv 0; Tv 3]; Goal false 3 [Tf 7 [Tv 3; Tf 8 [Tv 4]]; Tv 1]; Goal false 4 [Tv 4; Tv 3; Tc (Cflt 0)]].
Definition std : flags := Flags true true true.

(** ** All clauses are compiled *)
Theorem C60_total : forall fl cl, exists code, compile fl cl = Some code.
Proof.
  intros fl cl. unfold compile. destruct (chunks true 0 (c_body cl)) as (body, nb). destruct (classif_vars _ _) as (k, nby).
  match goal with |- context [gen_lst ?g ?l ?s] => assert (Q : gen_lst g l s <> None) by (apply gen_lst_total; intros p _ s1; apply gen_unif_total; apply le_n); destruct (gen_lst g l s) as [(c1, s1)|]; [|congruence] end.
  pose proof (body_total fl (kind_of k) body false nb s1) as Q1. destruct (generate_body fl (kind_of k) false nb body s1) as [c2|]; [|congruence]. eauto.
Qed.
Example C60_total_ex : compile std app_clause = Some
  [get_variable_x (T 2) (A 1); get_arg (i_get_structure dot 2) (A 0); unify_variable_x (T 0); unify_variable_x (T 1);
   get_arg (i_get_structure dot 2) (A 2); unify_value_x i_unify_value (T 0); unify_variable_x (T 3);
   put_value_x (T 1) (A 0); put_value_x (T 2) (A 1); put_value_x (T 3) (A 2); call (i_execute 9) 3].
Proof. vm_compute. reflexivity. Qed.
(** what is compiled *)
Lemma compile_inv : forall fl cl code (P : list inst -> Prop), compile fl cl = Some code ->
  (forall body nb k nby c1 s1 c2, chunks true 0 (c_body cl) = (body, nb) -> classif_vars (dico (c_head cl) body) (if native fl then 0 else 3) = (k, nby) ->
    gen_lst (unif_arg fl (kind_of k)) (reorder_head_arg_lst fl (kind_of k) (arg_regs (c_head cl))) (St (max_var (map d_var (dico (c_head cl) body))) (fun _ => None)) = Some (c1, s1) ->
    generate_body fl (kind_of k) false nb body s1 = Some c2 -> P ((if 1 <? nb then [other (i_allocate nby)] else []) ++ c1 ++ c2)) -> P code.
Proof.
  intros fl cl code P E HP. unfold compile in E. destruct (chunks true 0 (c_body cl)) as (body, nb) eqn:E1. destruct (classif_vars _ _) as (k, nby) eqn:E2.
  destruct (gen_lst _ _ _) as [(c1, s1)|] eqn:E3; [|discriminate E]. destruct (generate_body _ _ _ _ _ _) as [c2|] eqn:E4; [|discriminate E]. injection E as <-. eapply HP; eauto.
Qed.

(** ** The code is what the allocation of the registers relies on *)
Theorem C60_good_code : forall fl cl code, compile fl cl = Some code -> good_code code.
Proof. intros fl cl code E. apply (compile_inv _ _ _ _ E). intros. eapply top_good; eauto. Qed.

(** ** The code means what the clause means *)
Definition args_of {V : Type} (m : reg -> V) (cl : clause) : list V := map m (map A (seq 0 (length (c_head cl)))).
Theorem C60_meaning : forall (V : Type) cst fn fl cl code m goals, compile fl cl = Some code ->
  (code_means V cst fn code m goals <-> clause_means V cst fn cl (args_of m cl) goals).
Proof.
  intros V cst fn fl cl code m goals E. rewrite code_means_exec. pattern code. refine (compile_inv _ _ _ _ E _). intros body nb k nby c1 s1 c2 E1 E2 E3 E4. split.
  - intros (m' & H). apply (top_sound fl cl body nb E1 k nby E2 c1 c2 s1 E3 E4 V cst fn m m' goals H).
  - intros (e & EA & ->). destruct (top_complete fl cl body nb E1 k nby E2 c1 c2 s1 E3 E4 V cst fn e (fun x => Some (m x))) as (d' & H).
    + rewrite <- EA. unfold args_of. rewrite (map_map m Some). reflexivity.
    + destruct (pexec_exec V cst fn _ _ _ _ _ m H) as (m' & H' & _); [|eauto]. intros x v Q. injection Q as <-. reflexivity.
Qed.

(** ** The same after the allocation of the registers and the emission of the code *)
Theorem C60_allocated : forall (V : Type) cst fn fl cl code keep opt s n m goals, compile fl cl = Some code -> allocate_registers opt code = Some (s, n) ->
  (code_means V cst fn (emit_code keep (map (map_inst (val s)) code)) m goals <-> clause_means V cst fn cl (args_of m cl) goals).
Proof.
  intros V cst fn fl cl code keep opt s n m goals E EA. rewrite <- (C60_meaning V cst fn fl cl code m goals E). pose proof (C60_good_code _ _ _ E) as G.
  split; intros (result & rest & H); exists result, rest.
  - rewrite (C59_same_events V result rest rest keep opt code s n m m [] G EA (fun _ => eq_refl)). exact H.
  - rewrite <- (C59_same_events V result rest rest keep opt code s n m m [] G EA (fun _ => eq_refl)). exact H.
Qed.

(** the values of the examples: the terms *)
Definition final_code (cl : clause) : option (list inst) := match compile std cl with Some l => final false 2 l | None => None end.
(** the code of app/3 *)
Example C60_allocated_ex : final_code app_clause = Some
  [get_arg (i_get_structure dot 2) (A 0); unify_variable_x (A 3); unify_variable_x (A 0);
   get_arg (i_get_structure dot 2) (A 2); unify_value_x i_unify_value (A 3); unify_variable_x (A 2); call (i_execute 9) 3].
Proof. vm_compute. reflexivity. Qed.
Example C60_allocated_ex2 : final_code chunk_clause = Some
  [other (i_allocate 3); get_arg (i_get_variable 0) (A 1); get_arg (i_get_structure 5 3) (A 0); unify_variable_x (A 0); unify_variable_x (A 1);
   other (i_unify_void 1); get_arg (i_get_structure 6 1) (A 1); other (i_unify_local_value_y 0); call_c (i_call_c 1) false None [CX (A 0)];
   put_arg (i_put_variable 1) (A 1); call (i_call 2) 2; put_arg (i_put_structure 7 2) (A 0); other (i_unify_local_value_y 1);
   other (i_unify_structure 8 1); other (i_unify_variable 2); put_arg (i_put_value 0) (A 1); call (i_call 3) 2;
   put_arg (i_put_value 2) (A 0); put_arg (i_put_unsafe_value 1) (A 1); put_arg (i_put_const (Cflt 0)) (A 2); other i_deallocate; call (i_execute 4) 3].
Proof. vm_compute. reflexivity. Qed.
(** app([a,b], c, L) of the caller: the call of the body has the arguments [b], c and the rest of L;
    with a third argument which is not a list nothing is called *)
Definition lst (x y : tm) : tm := Tf dot [x; y].
Definition at_ (n : nat) : tm := Tc (Catm n).
Definition m_ok (x : reg) : tm :=
  match x with A 0 => lst (at_ 1) (lst (at_ 2) (Tc Cnil)) | A 1 => at_ 3 | A 2 => lst (at_ 1) (at_ 7) | _ => at_ 0 end.
Definition m_bad (x : reg) : tm := match x with A 2 => lst (at_ 2) (at_ 7) | _ => m_ok x end.
Example C60_meaning_ex : forall code, final_code app_clause = Some code ->
  (forall goals, code_means tm Tc Tf code m_ok goals <-> goals = [(false, 9, [lst (at_ 2) (Tc Cnil); at_ 3; at_ 7])]) /\
  (forall goals, ~ code_means tm Tc Tf code m_bad goals).
Proof.
  intros code E. unfold final_code, final in E. destruct (compile std app_clause) as [l|] eqn:EC; [|discriminate E]. destruct (allocate_registers 2 l) as [(s, n)|] eqn:EA; [|discriminate E]. injection E as <-.
  split; intros goals; rewrite (C60_allocated tm Tc Tf std app_clause l false 2 s n _ goals EC EA).
  - split.
    + intros (e & Q & ->). unfold args_of in Q. cbn in Q. injection Q as Q1 Q2 Q3 Q4 Q5. cbn. unfold goal_value. cbn. rewrite <- Q2, <- Q3, <- Q5. reflexivity.
    + intros ->. exists (fun n => match n with 0 => at_ 1 | 1 => lst (at_ 2) (Tc Cnil) | 2 => at_ 3 | _ => at_ 7 end). split; reflexivity.
  - intros (e & Q & _). unfold args_of in Q. cbn in Q. injection Q as Q1 Q2 Q3 Q4 Q5. rewrite <- Q1 in Q4. discriminate Q4.
Qed.

Print Assumptions C60_total.
Print Assumptions C60_good_code.
Print Assumptions C60_meaning.
Print Assumptions C60_allocated.
