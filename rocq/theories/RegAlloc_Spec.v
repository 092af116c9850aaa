(** C59: what the code does with its registers, and what is expected of the generated code.

    The machine has any number of registers.  An instruction reads registers, and writes values
    which depend on all that was read before (and on nothing else in the registers); it does
    this in the same way before and after the allocation, when the registers are renamed.
    What is observed is the list of the instructions with the values they read. *)
Require Import List Bool Arith.
Require Import Verif.RegAlloc_Model.
Import ListNotations.

(** what an instruction does: a copy, or reads; then all registers are lost (calls) or
    not, then writes (the numbers: which result of the instruction) *)
Inductive effect : Type :=
| Copy (x y : reg)                   (* of x in y *)
| Op (reads : list reg) (lost : bool) (writes : list (reg * nat)).
Definition x_args (l : list carg) : list reg := flat_map (fun a => match a with CX x => [x] | CVal _ => [] end) l.
Definition effect_of (i : inst) : effect :=
  match i with
  | get_variable_x tmp arg => Copy arg tmp
  | put_value_x tmp arg => Copy tmp arg
  | get_value_x tmp arg => Op [tmp; arg] false []
  | get_arg _ x => Op [x] false []
  | put_variable_x tmp arg => Op [] false [(tmp, 0); (arg, 0)]     (* the same variable *)
  | put_void x => Op [] false [(x, 0)]
  | put_arg _ x => Op [] false [(x, 0)]
  | put_meta_term _ x1 x => Op [x1] false [(x, 0)]
  | math_load_value _ x tmp => Op [x] false [(tmp, 0)]
  | unify_variable_x tmp => Op [] false [(tmp, 0)]
  | unify_value_x _ tmp => Op [tmp] false []
  | call _ n => Op (map A (seq 0 n)) true []
  | get_current_choice_x tmp => Op [] false [(tmp, 0)]
  | cut_x _ tmp => Op [tmp] false []
  | call_c _ stop ret l => Op (x_args l) stop (match ret with Some tmp => [(tmp, 0)] | None => [] end)
  | other _ => Op [] false []
  end.
(** the instruction without its registers: what it does apart from them *)
Inductive label : Type :=
| LCopy | LGetValue | LGet (k : info) | LNewVar | LPut (k : info) | LMeta (k : info) | LMath (k : info) | LUnifyVar | LUnify (k : info)
| LCall (k : info) (n : nat) | LChoice | LCut (k : info) | LCallC (k : info) (stop ret : bool) (l : list (option nat)) | LOther (k : info).
Definition label_of (i : inst) : label :=
  match i with
  | get_variable_x _ _ | put_value_x _ _ => LCopy
  | get_value_x _ _ => LGetValue
  | get_arg k _ => LGet k
  | put_variable_x _ _ | put_void _ => LNewVar
  | put_arg k _ => LPut k
  | put_meta_term k _ _ => LMeta k
  | math_load_value k _ _ => LMath k
  | unify_variable_x _ => LUnifyVar
  | unify_value_x k _ => LUnify k
  | call k n => LCall k n
  | get_current_choice_x _ => LChoice
  | cut_x k _ => LCut k
  | call_c k stop ret l => LCallC k stop (match ret with Some _ => true | None => false end) (map (fun a => match a with CX _ => None | CVal k => Some k end) l)
  | other k => LOther k
  end.

Section Run.
Variable V : Type.
Definition event : Type := (label * list V)%type.
(** the result number k of the last instruction; what the registers contain after a call *)
Variable result : list event -> nat -> V.
Variable rest : list event -> reg -> V.
Definition write (m : reg -> V) (x : reg) (v : V) : reg -> V := fun y => if reg_eqb x y then v else m y.
Fixpoint writes (m : reg -> V) (l : list (reg * V)) : reg -> V :=
  match l with [] => m | (x, v) :: l => writes (write m x v) l end.
(** the events, last first *)
Definition step (i : inst) (s : (reg -> V) * list event) : (reg -> V) * list event :=
  let (m, tr) := s in
  match effect_of i with
  | Copy x y => (write m y (m x), tr)
  | Op rd lost wr =>
    let tr := (label_of i, map m rd) :: tr in
    (writes (if lost then rest tr else m) (map (fun p => (fst p, result tr (snd p))) wr), tr)
  end.
Fixpoint run (l : list inst) (s : (reg -> V) * list event) : (reg -> V) * list event :=
  match l with [] => s | i :: l => run l (step i s) end.
End Run.

Definition reads_of (i : inst) : list reg := match effect_of i with Copy x _ => [x] | Op rd _ _ => rd end.
Definition writes_of (i : inst) : list reg := match effect_of i with Copy _ y => [y] | Op _ _ wr => map fst wr end.
Definition lost_by (i : inst) : bool := match effect_of i with Copy _ _ => false | Op _ lost _ => lost end.
(** the code reads [x] before it writes it *)
Fixpoint needed (x : reg) (l : list inst) : Prop :=
  match l with
  | [] => False
  | i :: l => In x (reads_of i) \/ (~ In x (writes_of i) /\ needed x l)
  end.
Definition written_again (a : nat) (l : list inst) : Prop :=
  match l with j :: l => effect_of j = Op [] false [(A a, 0)] /\ needed (A a) l | [] => False end.
(** what is expected of the code *)
Definition good_code (l : list inst) : Prop :=
  (* temporaries are not read before they are written *)
  (forall t, ~ needed (T t) l) /\
  forall l1 i l2, l = l1 ++ i :: l2 ->
    (* a temporary is written once, before the other instructions with it *)
    (forall t j, In (T t) (writes_of i) -> In j l1 -> ~ In (T t) (reads_of j) /\ ~ In (T t) (writes_of j)) /\
    (* an argument which is written is read later, or written again by the next instruction
       (which reads nothing) and read later *)
    (forall a, In (A a) (writes_of i) -> needed (A a) l2 \/ written_again a l2) /\
    (* no register is expected to survive a call *)
    (lost_by i = true -> forall x, ~ needed x l2) /\
    (* no copy in the same register *)
    (forall x y, effect_of i = Copy x y -> x <> y).
