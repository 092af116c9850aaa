(** Clause indexing: the generator /repo/src/Pl2Wam/indexing.pl and the execution of the
    instructions it emits.  Labels and clause addresses are positive integers (the source
    uses logical variables numbered at the end by allocate_labels); 0 stands for "fail".
    The label of clause number i (from 1) is i; [n] is the next free label. *)
Require Import ZArith List Bool.
Require Import Verif.Heap_Model Verif.Switch_Model.
Import ListNotations.
Open Scope Z_scope.

(** first_arg.pl:77-87: class of the first argument of a clause; a structure key is the word
    functor/arity.  Floats are in the class var *)
Inductive farg := FVar | FAtm (a : Z) | FInt (n : Z) | FLst | FStc (f : Z).
(** cl(Ad, FirstArg, WamCl); the code is [Body Ad] *)
Definition clause := (Z * farg)%type.
Inductive inst :=
| Lbl (l : Z)
| TryMe (l : Z) | RetryMe (l : Z) | TrustMe
| SwTerm (lvar latm lint llst lstc : Z)
| SwAtm (t : list (Z * Z)) | SwInt (t : list (Z * Z)) | SwStc (t : list (Z * Z))
| Try (l : Z) | Retry (l : Z) | Trust (l : Z)
| Body (ad : Z).

(** ** The generator *)
Section Gen.
(** the standard order of keys (keysort/1) and sort/1 on the groups *)
Variable leb : Z -> Z -> bool.
Variable perm : list (list Z * Z) -> list (list Z * Z).

(** indexing.pl:161-177 *)
Fixpoint look_for_var (lcc : list clause) : list clause * option clause * list clause :=
  match lcc with
  | [] => ([], None, [])
  | (ad, FVar) :: lcc => ([], Some (ad, FVar), lcc)
  | c :: lcc => let '(b, v, a) := look_for_var lcc in (c :: b, v, a)
  end.

(** indexing.pl:241-254 split1, split2 *)
Definition split_atm (lcc : list clause) : list (Z * Z) := flat_map (fun c => match snd c with FAtm a => [(a, fst c)] | _ => [] end) lcc.
Definition split_int (lcc : list clause) : list (Z * Z) := flat_map (fun c => match snd c with FInt a => [(a, fst c)] | _ => [] end) lcc.
Definition split_lst (lcc : list clause) : list Z := flat_map (fun c => match snd c with FLst => [fst c] | _ => [] end) lcc.
Definition split_stc (lcc : list clause) : list (Z * Z) := flat_map (fun c => match snd c with FStc a => [(a, fst c)] | _ => [] end) lcc.

(** keysort/1: stable *)
Fixpoint kins (x : Z * Z) (l : list (Z * Z)) : list (Z * Z) :=
  match l with
  | [] => [x]
  | y :: l => if leb (fst x) (fst y) then x :: y :: l else y :: kins x l
  end.
Fixpoint ksort (l : list (Z * Z)) : list (Z * Z) := match l with [] => [] | x :: l => kins x (ksort l) end.
(** indexing.pl:278-289: neighbours with the same key are put together (from the right here) *)
Fixpoint group1 (l : list (Z * Z)) : list (list Z * Z) :=
  match l with
  | [] => []
  | (k, ad) :: l =>
    match group1 l with
    | (lad, k') :: g => if k =? k' then (ad :: lad, k') :: g else ([ad], k) :: (lad, k') :: g
    | [] => [([ad], k)]
    end
  end.
(** indexing.pl:268-273 *)
Definition group_by_keys (l : list (Z * Z)) : list (list Z * Z) := perm (group1 (ksort l)).

(** indexing.pl:337-341 *)
Fixpoint gen_list1 (lad : list Z) : list inst :=
  match lad with
  | [] => []
  | [ad] => [Trust ad]
  | ad :: lad => Retry ad :: gen_list1 lad
  end.
(** indexing.pl:327-334 *)
Definition gen_list (lad : list Z) (n : Z) : Z * list inst * Z :=
  match lad with
  | [] => (0, [], n)
  | [ad] => (ad, [], n)
  | ad :: lad => (n, Lbl n :: Try ad :: gen_list1 lad, n + 1)
  end.
(** indexing.pl:317-322 *)
Fixpoint create_switch_list (g : list (list Z * Z)) (n : Z) : list (Z * Z) * list inst * Z :=
  match g with
  | [] => ([], [], n)
  | (lad, k) :: g =>
    let '(lab, c1, n) := gen_list lad n in
    let '(t, c2, n) := create_switch_list g n in
    ((k, lab) :: t, c1 ++ c2, n)
  end.
(** indexing.pl:294-312 *)
Definition gen_switch (g : list (list Z * Z)) (ins : list (Z * Z) -> inst) (n : Z) : Z * list inst * Z :=
  match g with
  | [] => (0, [], n)
  | [([ad], _)] => (ad, [], n)
  | _ => let '(t, c, n') := create_switch_list g (n + 1) in (n, Lbl n :: ins t :: c, n')
  end.
(** indexing.pl:355-360 *)
Fixpoint gen_insts1 (lcc : list clause) (n : Z) : list inst * Z :=
  match lcc with
  | [] => ([], n)
  | [(ad, _)] => ([Lbl n; TrustMe; Lbl ad; Body ad], n + 1)
  | (ad, _) :: lcc => let '(c, n') := gen_insts1 lcc (n + 1) in (Lbl n :: RetryMe (n + 1) :: Lbl ad :: Body ad :: c, n')
  end.
(** indexing.pl:346-351 *)
Definition gen_insts (lcc : list clause) (n : Z) : Z * list inst * Z :=
  match lcc with
  | [] => (0, [], n)
  | [(ad, _)] => (ad, [Lbl ad; Body ad], n)
  | (ad, _) :: lcc => let '(c, n') := gen_insts1 lcc (n + 1) in (n, Lbl n :: TryMe (n + 1) :: Lbl ad :: Body ad :: c, n')
  end.
(** indexing.pl:213-230 mk_indexing(2, ...) *)
Definition mk_indexing2 (lcc : list clause) (lev1 : bool) (n : Z) : list inst * Z :=
  let pre := if lev1 then [TrustMe] else [] in
  match lcc with
  | [(ad, _)] => (pre ++ [Body ad], n)
  | _ =>
    let '(latm, catm, n) := gen_switch (group_by_keys (split_atm lcc)) SwAtm n in
    let '(lint, cint, n) := gen_switch (group_by_keys (split_int lcc)) SwInt n in
    let '(llst, clst, n) := gen_list (split_lst lcc) n in
    let '(lstc, cstc, n) := gen_switch (group_by_keys (split_stc lcc)) SwStc n in
    let '(lvar, cvar, n) := gen_insts lcc n in
    (pre ++ SwTerm lvar latm lint llst lstc :: catm ++ cint ++ clst ++ cstc ++ cvar, n)
  end.
(** indexing.pl:182-211 (TmRmTm) *)
Definition tm (lev1 : bool) (l : Z) : inst := if lev1 then RetryMe l else TryMe l.
(** indexing.pl:147-156, 182-211; the result begins with its label.  [fuel]: more than the
    number of clauses *)
Fixpoint indexing1 (fuel : nat) (lcc : list clause) (lev1 : bool) (n : Z) : option (Z * list inst * Z) :=
  match fuel with
  | O => None
  | S f =>
    let lab0 := n in let n := n + 1 in
    match look_for_var lcc with
    | (_, None, _) => let '(c, n) := mk_indexing2 lcc lev1 n in Some (lab0, Lbl lab0 :: c, n)
    | ([], Some (ad, _), []) => Some (lab0, Lbl lab0 :: (if lev1 then [TrustMe] else []) ++ [Body ad], n)                (* 14 *)
    | ([], Some (ad, _), after) =>                                                                                       (* 13 *)
      match indexing1 f after true n with
      | Some (lab, c, n) => Some (lab0, Lbl lab0 :: tm lev1 lab :: Body ad :: c, n)
      | None => None
      end
    | (before, Some (ad, _), []) =>                                                                                      (* 12 *)
      let '(c, n') := mk_indexing2 before false (n + 1) in
      Some (lab0, Lbl lab0 :: tm lev1 n :: c ++ [Lbl n; TrustMe; Body ad], n')
    | (before, Some (ad, _), after) =>                                                                                   (* 11 *)
      let '(c, n') := mk_indexing2 before false (n + 1) in
      match indexing1 f after true n' with
      | Some (lab1, c1, n'') => Some (lab0, Lbl lab0 :: tm lev1 n :: c ++ Lbl n :: RetryMe lab1 :: Body ad :: c1, n'')
      | None => None
      end
    end
  end.
(** indexing.pl:134-142 (the first label is dropped) *)
Definition indexing (lcc : list clause) : option (list inst) :=
  match indexing1 (S (length lcc)) lcc false (Z.of_nat (length lcc) + 1) with
  | Some (_, _ :: c, _) => Some c
  | _ => None
  end.
End Gen.

(** ** Execution *)
(** A(0) after dereferencing *)
Inductive arg0 := ARef | AFdv | AFlt | AAtm (a : Z) | AInt (n : Z) | ALst | AStc (f : Z).
(** wam_inst.c:1074-1097 Pl_Switch_On_Term and 1100-1196 its four special cases, chosen by
    wam2ma.c:1302-1324 after the labels that are not "fail" *)
Definition Switch_On_Term (lvar latm lint llst lstc : Z) (a : arg0) : Z :=
  let var_atm := negb (lvar =? 0) && negb (latm =? 0) && (lint =? 0) && (llst =? 0) && (lstc =? 0) in
  let var_stc := negb (lvar =? 0) && (latm =? 0) && (lint =? 0) && (llst =? 0) && negb (lstc =? 0) in
  let var_atm_lst := negb (lvar =? 0) && negb (latm =? 0) && (lint =? 0) && negb (llst =? 0) && (lstc =? 0) in
  let var_atm_stc := negb (lvar =? 0) && negb (latm =? 0) && (lint =? 0) && (llst =? 0) && negb (lstc =? 0) in
  if var_atm then match a with AAtm _ => latm | ARef | AFdv => lvar | _ => 0 end
  else if var_stc then match a with AStc _ => lstc | ARef | AFdv => lvar | _ => 0 end
  else if var_atm_lst then match a with ALst => llst | AAtm _ => latm | ARef | AFdv => lvar | _ => 0 end
  else if var_atm_stc then match a with AStc _ => lstc | AAtm _ => latm | ARef | AFdv => lvar | _ => 0 end
  else match a with AInt _ => lint | AAtm _ => latm | ALst => llst | AStc _ => lstc | _ => lvar end.

Fixpoint find_lab (l : Z) (c : list inst) : option (list inst) :=
  match c with
  | [] => None
  | Lbl l' :: c => if l =? l' then Some c else find_lab l c
  | _ :: c => find_lab l c
  end.
Section Exec.
Variable qs : list (Z * Z) -> list (Z * Z).        (* qsort *)
Variable prog : list inst.
Variable a : arg0.
(** The stack holds the alternative of each choice point made since the call.  The result is
    the list of the clauses entered, each with the number of choice points at that moment,
    when every clause fails.  A failure with no choice point left ends the execution. *)
Fixpoint exec (fuel : nat) (c : list inst) (st : list (list inst)) : outcome (list (Z * Z)) :=
  match fuel with
  | O => NoFuel
  | S f =>
    let fail := match st with [] => Ret [] | alt :: _ => exec f alt st end in
    let goto l st := match find_lab l prog with Some c => exec f c st | None => UB end in
    let jump l := if l =? 0 then fail else goto l st in
    match c with
    | [] => UB
    | Lbl _ :: c => exec f c st
    | TryMe l :: c => match find_lab l prog with Some alt => exec f c (alt :: st) | None => UB end
    | RetryMe l :: c => match st, find_lab l prog with _ :: st, Some alt => exec f c (alt :: st) | _, _ => UB end
    | TrustMe :: c => match st with _ :: st => exec f c st | [] => UB end
    | Try l :: c => goto l (c :: st)
    | Retry l :: c => match st with _ :: st => goto l (c :: st) | [] => UB end
    | Trust l :: _ => match st with _ :: st => goto l st | [] => UB end
    | SwTerm lvar latm lint llst lstc :: _ => jump (Switch_On_Term lvar latm lint llst lstc a)
    | SwAtm t :: _ => match a with AAtm k => do r <- Switch_On t k; jump (match r with Some l => l | None => 0 end) | _ => UB end
    | SwInt t :: _ => match a with AInt k => do r <- Switch_Ret (qs (switch_cases t)) k; jump (match r with Some l => l | None => 0 end) | _ => UB end
    | SwStc t :: _ => match a with AStc k => do r <- Switch_On t k; jump (match r with Some l => l | None => 0 end) | _ => UB end
    | Body ad :: _ => do r <- fail; Ret ((ad, Z.of_nat (length st)) :: r)
    end
  end.
End Exec.
