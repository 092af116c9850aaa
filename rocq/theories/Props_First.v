(** C64: the clauses which the indexing on the first argument leaves out.  Theorems and examples. *)
Require Import List Bool Arith Lia.
Require Import Verif.RegAlloc_Model Verif.Clause_Model Verif.First_Model.
Import ListNotations.

(** a word after dereferencing; [DVar]: a variable (also with a domain) *)
Inductive dval : Type := DVar | DConst (c : const) | DList | DStruct (f n : nat).
(** a call with this first argument may enter a clause of this class *)
Definition may_enter (a : fclass) (d : dval) : Prop :=
  match a, d with
  | FV, _ | _, DVar => True
  | FConst a, DConst a' => a = a'
  | FList, DList => True
  | FStruct f n, DStruct f' n' => f = f' /\ n = n'
  | _, _ => False
  end.
(** the registers an instruction writes *)
Definition written (i : inst) (x : reg) : Prop := In (w x) (codification i) \/ exists y, In (c y x) (codification i) /\ y <> x.
Section Machine.
Variables V W E : Type.
Variable step : inst -> (reg -> V) -> W -> res V W E.
Variable deref : W -> V -> dval.
(** an instruction does not change the other registers, and what is bound stays bound; get_atom, get_nil, get_integer,
    get_list and get_structure fail when the register holds another atomic term or another functor *)
Definition wam : Prop :=
  (forall i m s m' s' x, step i m s = Next m' s' -> ~ written i x -> m' x = m x) /\
  (forall i m s m' s' v, (forall k n, i <> call k n) -> step i m s = Next m' s' -> deref s v <> DVar -> deref s' v = deref s v) /\
  (forall a x m s, (match a with Cflt _ => False | _ => True end) -> deref s (m x) <> DVar -> deref s (m x) <> DConst a -> exists s', step (get_arg (i_get_const a) x) m s = Failed s') /\
  (forall x m s, deref s (m x) <> DVar -> deref s (m x) <> DList -> exists s', step (get_arg (i_get_structure dot 2) x) m s = Failed s') /\
  (forall f n x m s, ~ (f = dot /\ n = 2) -> deref s (m x) <> DVar -> deref s (m x) <> DStruct f n -> exists s', step (get_arg (i_get_structure f n) x) m s = Failed s').
(** no call, no cut *)
Variable cut_y : info -> bool.
Definition local (i : inst) : Prop := match i with call _ _ | cut_x _ _ => False | other k => cut_y k = false | _ => True end.

Lemma assign_x0_ok : forall l, assign_x0 l = false -> ~ In (w (A 0)) l /\ forall y, In (c y (A 0)) l -> y = A 0.
Proof.
  induction l as [|k l IH]; intros H; [split; [intros []|intros y []]|]. cbn [assign_x0] in H. destruct k as [x|x|x y].
  - destruct (IH H) as (I1 & I2). split; [intros [Q|Q]; [discriminate|auto]|intros y [Q|Q]; [discriminate|auto]].
  - apply orb_false_iff in H. destruct H as (H1 & H2). destruct (IH H2) as (I1 & I2). split; [intros [Q|Q]; [injection Q as ->; discriminate H1|auto]|intros y [Q|Q]; [discriminate|auto]].
  - apply orb_false_iff in H. destruct H as (H1 & H2). destruct (IH H2) as (I1 & I2). split; [intros [Q|Q]; [discriminate|auto]|]. intros z [Q|Q]; [|auto]. injection Q as -> ->.
    cbn [reg_eqb] in H1. destruct z as [[|n]|n]; [reflexivity|discriminate H1|discriminate H1].
Qed.
Lemma stopping_ok : forall i, stopping_inst cut_y i = false -> local i /\ ~ written i (A 0).
Proof.
  intros i H. assert (G : assign_x0 (codification i) = false -> ~ written i (A 0)).
  { intros Q. apply assign_x0_ok in Q. destruct Q as (Q1 & Q2). intros [P|(y & P & N)]; [exact (Q1 P)|]. apply N. apply Q2. exact P. }
  destruct i; cbn [stopping_inst local] in *; try discriminate H; try (split; [exact Logic.I|apply G; exact H]). split; [exact H|]. intros [P|(y & P & _)]; destruct P.
Qed.
Lemma defines_fails : wam -> forall i a m s, defines_first_arg i = Some a -> ~ may_enter a (deref s (m (A 0))) -> exists s', step i m s = Failed s'.
Proof.
  intros (W1 & W2 & W3 & W4 & W5) i a m s D H. assert (NV : deref s (m (A 0)) <> DVar) by (intros Q; apply H; rewrite Q; destruct a; exact Logic.I).
  destruct i as [x y|x y|k x| | | | | | | | | | | | |]; try discriminate D. cbn [defines_first_arg] in D. destruct k as [| | |cc|f n| | | | | | | | | | | | | | | | | | | |]; try discriminate D.
  - destruct cc as [b|b|b|]; (destruct x as [[|x]|x]; try discriminate D); injection D as <-; apply W3; auto; intros Q; apply H; rewrite Q; reflexivity.
  - destruct x as [[|x]|x]; try discriminate D. injection D as <-. destruct (Nat.eqb_spec f dot) as [->|N1]; [destruct (Nat.eqb_spec n 2) as [->|N2]|]; cbn [andb] in H.
    + apply W4; [exact NV|]. intros Q. apply H. rewrite Q. exact Logic.I.
    + apply W5; [tauto|exact NV|]. intros Q. apply H. rewrite Q. split; reflexivity.
    + apply W5; [tauto|exact NV|]. intros Q. apply H. rewrite Q. split; reflexivity.
Qed.
Lemma defines_local : forall i a, defines_first_arg i = Some a -> local i.
Proof. intros i a D. destruct i; try discriminate D. exact Logic.I. Qed.
Lemma keeps : wam -> forall i m s m' s', step i m s = Next m' s' -> stopping_inst cut_y i = false -> deref s (m (A 0)) <> DVar -> deref s' (m' (A 0)) = deref s (m (A 0)).
Proof.
  intros (W1 & W2 & _) i m s m' s' E1 ST NV. destruct (stopping_ok i ST) as (LI & NW). rewrite (W1 _ _ _ _ _ _ E1 NW). apply (W2 i m s m' s'); auto. intros k n ->. exact LI.
Qed.
Lemma not_var : forall a d, ~ may_enter a d -> d <> DVar.
Proof. intros a d H ->. apply H. destruct a; exact Logic.I. Qed.

(** ** A clause left out is a clause which fails (or raises an error) before any call or cut *)
Theorem C64_left_out : wam -> forall l m s, ~ may_enter (find_first_arg cut_y l) (deref s (m (A 0))) ->
  exists l1 l2, l = l1 ++ l2 /\ Forall local l1 /\ ((exists s', run step l1 m s = Failed s') \/ exists e, run step l1 m s = Raised e).
Proof.
  intros HW. induction l as [|i l IH]; intros m s H; [destruct H; exact Logic.I|]. pose proof (not_var _ _ H) as NV. cbn [find_first_arg] in H. destruct (defines_first_arg i) as [a|] eqn:D.
  - exists [i], l. split; [reflexivity|]. split; [constructor; [apply (defines_local i a D)|constructor]|]. left. destruct (defines_fails HW i a m s D H) as (s' & F). exists s'. cbn [run]. rewrite F. reflexivity.
  - destruct (stopping_inst cut_y i) eqn:ST; [destruct H; exact Logic.I|]. destruct (stopping_ok i ST) as (LI & NW). destruct (step i m s) as [m' s'|s'|e] eqn:E1.
    + destruct (IH m' s') as (l1 & l2 & -> & L1 & L2); [rewrite (keeps HW i m s m' s' E1 ST NV); exact H|]. exists (i :: l1), l2. split; [reflexivity|]. split; [constructor; assumption|]. cbn [run]. rewrite E1. exact L2.
    + exists [i], l. split; [reflexivity|]. split; [constructor; [exact LI|constructor]|]. left. exists s'. cbn [run]. rewrite E1. reflexivity.
    + exists [i], l. split; [reflexivity|]. split; [constructor; [exact LI|constructor]|]. right. exists e. cbn [run]. rewrite E1. reflexivity.
Qed.
(** ** If nothing before the unification can raise an error or have an effect which remains, leaving the clause out changes nothing *)
Variable X : Type.
Variable eff : W -> X.          (* what backtracking does not undo *)
Definition unifies (i : inst) : Prop := match i with call_c _ _ _ _ | math_load_value _ _ _ | put_meta_term _ _ _ => False | _ => True end.
Theorem C64_same : wam ->
  (forall i m s, unifies i -> local i -> match step i m s with Next _ s' => eff s' = eff s | Failed s' => eff s' = eff s | Raised _ => False end) ->
  forall l1 i l2 m s, ~ may_enter (find_first_arg cut_y (l1 ++ i :: l2)) (deref s (m (A 0))) -> defines_first_arg i <> None -> (forall j, In j l1 -> unifies j) ->
  exists s', run step (l1 ++ i :: l2) m s = Failed s' /\ eff s' = eff s.
Proof.
  intros HW HU. induction l1 as [|j l1 IH]; intros i l2 m s H D U; pose proof (not_var _ _ H) as NV; cbn [app find_first_arg run] in *.
  - destruct (defines_first_arg i) as [a|] eqn:DA; [|destruct D; reflexivity]. destruct (defines_fails HW i a m s DA H) as (s' & F). exists s'. rewrite F. split; [reflexivity|].
    assert (UI : unifies i) by (destruct i; try discriminate DA; exact Logic.I). pose proof (HU i m s UI (defines_local i a DA)) as Q. rewrite F in Q. exact Q.
  - assert (UJ : unifies j) by (apply U; left; reflexivity). destruct (defines_first_arg j) as [a|] eqn:DA.
    + destruct (defines_fails HW j a m s DA H) as (s' & F). exists s'. rewrite F. split; [reflexivity|]. pose proof (HU j m s UJ (defines_local j a DA)) as Q. rewrite F in Q. exact Q.
    + destruct (stopping_inst cut_y j) eqn:ST; [destruct H; exact Logic.I|]. pose proof (HU j m s UJ (proj1 (stopping_ok j ST))) as Q. destruct (step j m s) as [m' s'|s'|e] eqn:E1; [|exists s'; auto|destruct Q].
      destruct (IH i l2 m' s') as (s2 & I1 & I2); [rewrite (keeps HW j m s m' s' E1 ST NV); exact H|exact D|intros k Hk; apply U; right; exact Hk|]. exists s2. split; [exact I1|congruence].
Qed.
End Machine.

(** ** A small machine: the registers hold constants; no variables *)
Definition code_of (opt : nat) (l : list inst) : option (list inst) := match allocate_registers opt l with Some (s, _) => Some (map (map_inst (val s)) l) | None => None end.
Definition no_cut_y (k : info) : bool := false.
(** call_c 1: g_assign/2; call_c 2: a function which raises an error; the state: the global variable *)
Definition kstep (i : inst) (m : reg -> const) (g : const) : res const const nat :=
  let up (x : reg) (v : const) := fun y => if reg_eqb y x then v else m y in
  match i with
  | get_variable_x t a => Next (up t (m a)) g
  | put_value_x t a => Next (up a (m t)) g
  | put_arg (i_put_const k) x => Next (up x k) g
  | get_arg (i_get_const (Cflt _)) x => Next m g
  | get_arg (i_get_const k) x => match k, m x with Catm a, Catm b | Cint a, Cint b => if a =? b then Next m g else Failed g | Cnil, Cnil => Next m g | _, _ => Failed g end
  | get_arg (i_get_structure _ _) _ => Failed g
  | call_c (i_call_c 1) _ _ [CX _; CX y] => Next m (m y)
  | call_c (i_call_c 2) _ _ _ => Raised 7
  | _ => Next m g
  end.
Definition kderef (g k : const) : dval := DConst k.
Lemma reg_eqb_eq : forall x y, reg_eqb x y = true <-> x = y.
Proof. intros [x|x] [y|y]; cbn; rewrite ?Nat.eqb_eq; split; intros Q; try discriminate Q; try (injection Q as ->; reflexivity); subst; reflexivity. Qed.
Lemma kwam : wam const const nat kstep kderef.
Proof.
  assert (UP : forall (m : reg -> const) x v y, (y = x -> v = m y) -> (if reg_eqb y x then v else m y) = m y).
  { intros m x v y N. destruct (reg_eqb y x) eqn:Q; [|reflexivity]. apply N. apply reg_eqb_eq. exact Q. }
  repeat apply conj.
  - intros i m s m' s' x E NW. unfold written in NW. destruct i as [t a|t a|k a|t a|a|t a|k a|k a b|k a b|t|k t|k n|t|k t|k st rt l|k]; cbn [kstep codification] in *; try (injection E as <- <-; reflexivity).
    + injection E as <- <-. apply UP. intros ->. destruct (reg_eqb a t) eqn:Q; [apply reg_eqb_eq in Q; subst; reflexivity|]. destruct NW. right. exists a. split; [left; reflexivity|]. intros ->. rewrite (proj2 (reg_eqb_eq t t) eq_refl) in Q. discriminate Q.
    + destruct k as [| | |[b|b|b|]|f n| | | | | | | | | | | | | | | | | | | |]; try (injection E as <- <-; reflexivity); try discriminate E; destruct (m a) as [b'|b'|b'|]; try discriminate E; try (destruct (b =? b'); try discriminate E); injection E as <- <-; reflexivity.
    + injection E as <- <-. apply UP. intros ->. destruct (reg_eqb t a) eqn:Q; [apply reg_eqb_eq in Q; subst; reflexivity|]. destruct NW. right. exists t. split; [left; reflexivity|]. intros ->. rewrite (proj2 (reg_eqb_eq a a) eq_refl) in Q. discriminate Q.
    + destruct k; injection E as <- <-; try reflexivity. apply UP. intros ->. destruct NW. left. left. reflexivity.
    + repeat match type of E with context [match ?x with _ => _ end] => destruct x; try discriminate E end; injection E as <- <-; reflexivity.
  - intros. reflexivity.
  - intros a x m s NF _ N. unfold kderef in N. cbn [kstep]. exists s. destruct a as [a|a|a|]; [| |destruct NF|]; destruct (m x) as [b|b|b|]; try reflexivity; try (destruct (Nat.eqb_spec a b) as [->|]; [destruct N; reflexivity|reflexivity]). destruct N. reflexivity.
  - intros x m s _ _. exists s. reflexivity.
  - intros f n x m s _ _ _. exists s. reflexivity.
Qed.
(** p(X) :- Y = q1, X = a, r(_,Y). *)
Definition plain_clause : list inst := [get_variable_x (T 0) (A 0); put_arg (i_put_const (Catm 5)) (T 1); get_arg (i_get_const (Catm 1)) (T 0); put_void (A 0); put_value_x (T 1) (A 1); call (i_execute 9) 2].
Example C64_left_out_ex : exists l, code_of 2 plain_clause = Some l /\ wam const const nat kstep kderef /\ find_first_arg no_cut_y l = FConst (Catm 1) /\
  (let m := fun x => Catm 2 in ~ may_enter (find_first_arg no_cut_y l) (kderef Cnil (m (A 0))) /\ run kstep l m Cnil = Failed Cnil).
Proof. eexists. split; [vm_compute; reflexivity|]. split; [apply kwam|]. vm_compute. split; [reflexivity|]. split; [intros Q; discriminate Q|reflexivity]. Qed.
Example C64_same_ex : (forall i m s, unifies i -> local no_cut_y i -> match kstep i m s with Next _ s' => s' = s | Failed s' => s' = s | Raised _ => False end) /\
  exists l, code_of 2 plain_clause = Some l /\ exists l1 i l2, l = l1 ++ i :: l2 /\ defines_first_arg i <> None /\ (forall j, In j l1 -> unifies j) /\ length l1 = 2.
Proof.
  split.
  - intros i m s U L. destruct i as [t a|t a|k a|t a|a|t a|k a|k a b|k a b|t|k t|k n|t|k t|k st rt l|k]; try reflexivity; try destruct U; cbn [kstep].
    + destruct k as [| | |[b|b|b|]|f n| | | | | | | | | | | | | | | | | | | |]; try reflexivity; destruct (m a) as [b'|b'|b'|]; try reflexivity; destruct (b =? b'); reflexivity.
    + destruct k; reflexivity.
  - eexists. split; [vm_compute; reflexivity|]. eexists [_; _], _, _. split; [reflexivity|]. split; [discriminate|]. split; [|reflexivity]. intros j [<-|[<-|[]]]; exact Logic.I.
Qed.
(** the first argument may be overwritten: then it is not a first argument any more *)
Example C64_stop_ex : find_first_arg no_cut_y [put_arg (i_put_const (Catm 5)) (A 0); get_arg (i_get_const (Catm 1)) (A 0)] = FV /\
  find_first_arg no_cut_y [get_variable_x (A 0) (A 1); get_arg (i_get_const (Catm 1)) (A 0)] = FV /\ find_first_arg no_cut_y [get_variable_x (A 0) (A 0); get_arg (i_get_structure dot 2) (A 0)] = FList /\
  find_first_arg no_cut_y [call (i_call 3) 0; get_arg (i_get_const (Catm 1)) (A 0)] = FV /\ find_first_arg no_cut_y [cut_x 0 (A 1); get_arg (i_get_const (Catm 1)) (A 0)] = FV.
Proof. repeat split; reflexivity. Qed.

(** ** Counterexamples: the effect, or the error, of an inline goal before the unification is lost
    p(X) :- g_assign(c, 1), X = a.      called with X = b *)
Definition assign_clause : list inst :=
  [get_variable_x (T 0) (A 0); put_arg (i_put_const (Catm 3)) (T 1); put_arg (i_put_const (Cint 1)) (T 2); call_c (i_call_c 1) false None [CX (T 1); CX (T 2)]; get_arg (i_get_const (Catm 1)) (T 0); other i_proceed].
Theorem C64_effect_refuted : exists l m, code_of 2 assign_clause = Some l /\ wam const const nat kstep kderef /\
  ~ may_enter (find_first_arg no_cut_y l) (kderef (Cint 0) (m (A 0))) /\ run kstep l m (Cint 0) = Failed (Cint 1).
Proof.
  exists [get_variable_x (A 0) (A 0); put_arg (i_put_const (Catm 3)) (A 1); put_arg (i_put_const (Cint 1)) (A 2); call_c (i_call_c 1) false None [CX (A 1); CX (A 2)]; get_arg (i_get_const (Catm 1)) (A 0); other i_proceed], (fun _ => Catm 2).
  split; [vm_compute; reflexivity|]. split; [apply kwam|]. split; [intros Q; discriminate Q|reflexivity].
Qed.
(** p(X) :- Y is foo + 1, X = a. *)
Definition error_clause : list inst :=
  [get_variable_x (T 0) (A 0); call_c (i_call_c 2) false (Some (T 1)) []; get_arg (i_get_const (Catm 1)) (T 0); other i_proceed].
Theorem C64_error_refuted : exists l m, code_of 2 error_clause = Some l /\ wam const const nat kstep kderef /\
  ~ may_enter (find_first_arg no_cut_y l) (kderef (Cint 0) (m (A 0))) /\ run kstep l m (Cint 0) = Raised 7.
Proof.
  exists [get_variable_x (A 0) (A 0); call_c (i_call_c 2) false (Some (A 1)) []; get_arg (i_get_const (Catm 1)) (A 0); other i_proceed], (fun _ => Catm 2).
  split; [vm_compute; reflexivity|]. split; [apply kwam|]. split; [intros Q; discriminate Q|reflexivity].
Qed.
Print Assumptions C64_left_out.
Print Assumptions C64_same.
Print Assumptions C64_effect_refuted.
Print Assumptions C64_error_refuted.
