(** Byte-code of the consulted clauses.  /repo/src/BipsPl/bc_supp.c, words of 64 bits (WORD_SIZE == 64).

    The primitives of the emulator (Pl_Unify, Pl_Get_Atom, ...) are the fields of a record: any machine.
    Simplifications: the debugger is not active (pl_debug_call_code == NULL); Pl_Allocate with BC_FRAME_BEGIN and
    Pl_Deallocate with BC_FRAME_END are one primitive each; the bit fields are those of a little-endian machine. *)
Require Import ZArith List Bool.
Import ListNotations.
Open Scope Z_scope.

(** ** Words *)
(** bc_supp.c:146-163 BCWord: code_op:8 i8:8 i16:16, or code_op:8 i24:24 *)
Definition BC_Op (w : Z) : Z := w mod 256.
Definition i8 (w : Z) : Z := w / 256 mod 256.
Definition i16 (w : Z) : Z := w / 65536 mod 65536.
Definition i24 (w : Z) : Z := w / 256 mod 16777216.
Definition set_op (w v : Z) : Z := w - BC_Op w + v mod 256.
Definition set_i8 (w v : Z) : Z := w - i8 w * 256 + v mod 256 * 256.
Definition set_i16 (w v : Z) : Z := w - i16 w * 65536 + v mod 65536 * 65536.
Definition set_i24 (w v : Z) : Z := w - i24 w * 256 + v mod 16777216 * 256.
(** a uint32_t as int, a PlULong as PlLong *)
Definition to_int (w : Z) : Z := let v := w mod 2 ^ 32 in if v <? 2 ^ 31 then v else v - 2 ^ 32.
Definition to_long (w : Z) : Z := let v := w mod 2 ^ 64 in if v <? 2 ^ 63 then v else v - 2 ^ 64.
(** bc_supp.c:167-176 C64To32: u[0], u[1] *)
Definition u0 (l : Z) : Z := l mod 2 ^ 32.
Definition u1 (l : Z) : Z := l / 2 ^ 32 mod 2 ^ 32.
Definition of_u (a b : Z) : Z := a + b * 2 ^ 32.
(** bc_supp.c:241-243 *)
Definition Fit_In_16bits (n : Z) : bool := n mod 2 ^ 64 <? 65536.
Definition Fit_In_24bits (n : Z) : bool := n mod 2 ^ 64 <? 16777216.
(** /repo/src/EnginePl/wam_inst.h:116-120 *)
Definition Functor_Arity (f n : Z) : Z := Z.lor (n * 2 ^ 54 mod 2 ^ 64) f.
Definition Functor_Of (w : Z) : Z := to_int (w mod 2 ^ 64 mod 2 ^ 54).
Definition Arity_Of (w : Z) : Z := to_int (w mod 2 ^ 64 / 2 ^ 54).

(** ** The instructions, as terms of the .wbc file *)
Inductive reg : Type := RX (n : Z) | RY (n : Z).
Inductive wam : Type :=
| get_variable (r : reg) (x0 : Z) | get_value (r : reg) (x0 : Z) | get_atom (a x0 : Z) | get_integer (l x0 : Z)
| get_float (d x0 : Z)                                  (* [d]: the 64 bits of the double *)
| get_nil (x0 : Z) | get_list (x0 : Z) | get_structure (f n x0 : Z)
| put_variable (r : reg) (x0 : Z) | put_void (x0 : Z) | put_value (r : reg) (x0 : Z) | put_unsafe_value (r : reg) (x0 : Z)
| put_atom (a x0 : Z) | put_integer (l x0 : Z) | put_float (d x0 : Z) | put_nil (x0 : Z) | put_list (x0 : Z)
| put_structure (f n x0 : Z) | math_load_value (r : reg) (x0 : Z)
| unify_variable (r : reg) | unify_void (n : Z) | unify_value (r : reg) | unify_local_value (r : reg)
| unify_atom (a : Z) | unify_integer (l : Z) | unify_nil | unify_list | unify_structure (f n : Z)
| allocate (n : Z) | deallocate | call (f n : Z) | execute (f n : Z) | proceed | fail
| get_current_choice (r : reg) | cut (r : reg) | soft_cut (r : reg).

(** bc_supp.c:72-142 BCCodOp *)
Inductive bcop : Type :=
| GET_X_VARIABLE | GET_Y_VARIABLE | GET_X_VALUE | GET_Y_VALUE | GET_ATOM | GET_ATOM_BIG | GET_INTEGER | GET_INTEGER_BIG
| GET_FLOAT | GET_NIL | GET_LIST | GET_STRUCTURE
| PUT_X_VARIABLE | PUT_Y_VARIABLE | PUT_VOID | PUT_X_VALUE | PUT_Y_VALUE | PUT_Y_UNSAFE_VALUE | PUT_ATOM | PUT_ATOM_BIG
| PUT_INTEGER | PUT_INTEGER_BIG | PUT_FLOAT | PUT_NIL | PUT_LIST | PUT_STRUCTURE
| MATH_LOAD_X_VALUE | MATH_LOAD_Y_VALUE
| UNIFY_X_VARIABLE | UNIFY_Y_VARIABLE | UNIFY_VOID | UNIFY_X_VALUE | UNIFY_Y_VALUE | UNIFY_X_LOCAL_VALUE | UNIFY_Y_LOCAL_VALUE
| UNIFY_ATOM | UNIFY_ATOM_BIG | UNIFY_INTEGER | UNIFY_INTEGER_BIG | UNIFY_NIL | UNIFY_LIST | UNIFY_STRUCTURE
| ALLOCATE | DEALLOCATE | CALL | CALL_NATIVE | EXECUTE | EXECUTE_NATIVE | PROCEED | FAIL
| GET_CURRENT_CHOICE_X | GET_CURRENT_CHOICE_Y | CUT_X | CUT_Y | SOFT_CUT_X | SOFT_CUT_Y.
Definition enum : list bcop :=
  [GET_X_VARIABLE; GET_Y_VARIABLE; GET_X_VALUE; GET_Y_VALUE; GET_ATOM; GET_ATOM_BIG; GET_INTEGER; GET_INTEGER_BIG;
   GET_FLOAT; GET_NIL; GET_LIST; GET_STRUCTURE;
   PUT_X_VARIABLE; PUT_Y_VARIABLE; PUT_VOID; PUT_X_VALUE; PUT_Y_VALUE; PUT_Y_UNSAFE_VALUE; PUT_ATOM; PUT_ATOM_BIG;
   PUT_INTEGER; PUT_INTEGER_BIG; PUT_FLOAT; PUT_NIL; PUT_LIST; PUT_STRUCTURE;
   MATH_LOAD_X_VALUE; MATH_LOAD_Y_VALUE;
   UNIFY_X_VARIABLE; UNIFY_Y_VARIABLE; UNIFY_VOID; UNIFY_X_VALUE; UNIFY_Y_VALUE; UNIFY_X_LOCAL_VALUE; UNIFY_Y_LOCAL_VALUE;
   UNIFY_ATOM; UNIFY_ATOM_BIG; UNIFY_INTEGER; UNIFY_INTEGER_BIG; UNIFY_NIL; UNIFY_LIST; UNIFY_STRUCTURE;
   ALLOCATE; DEALLOCATE; CALL; CALL_NATIVE; EXECUTE; EXECUTE_NATIVE; PROCEED; FAIL;
   GET_CURRENT_CHOICE_X; GET_CURRENT_CHOICE_Y; CUT_X; CUT_Y; SOFT_CUT_X; SOFT_CUT_Y].
Definition of_code (z : Z) : option bcop := nth_error enum (Z.to_nat z).
Fixpoint position (o : bcop) (l : list bcop) (dec : forall x y : bcop, {x = y} + {x <> y}) : Z :=
  match l with [] => 0 | x :: l => if dec x o then 0 else 1 + position o l dec end.
Definition bcop_dec : forall x y : bcop, {x = y} + {x <> y}.
Proof. decide equality. Defined.
Definition code (o : bcop) : Z := position o enum bcop_dec.

(** ** Creation *)
(** a predicate: native code at an address, or dynamic *)
Record pred : Type := Pred { native : bool; codep : Z }.
Definition table : Type := Z -> Z -> option pred.        (* Pl_Lookup_Pred *)
(** bc_supp.c:799-811 BC_Arg_X_Or_Y: the number, the change of op *)
Definition BC_Arg_X_Or_Y (r : reg) : Z * Z := match r with RX n => (n, 0) | RY n => (n, 1) end.

(** op and the words of one instruction: the switch of Pl_BC_Emit_Inst_1, bc_supp.c:568-726.  [cf], [cn]:
    glob_caller_func, glob_caller_arity *)
Definition xy_x0 (o : bcop) (r : reg) (x0 : Z) : Z * Z * list Z :=
  let (n, y) := BC_Arg_X_Or_Y r in (code o + y, set_i8 (set_i16 0 n) x0, []).
Definition xy (o : bcop) (r : reg) : Z * Z * list Z :=
  let (n, y) := BC_Arg_X_Or_Y r in (code o + y, set_i24 0 n, []).
Definition atom_x0 (o : bcop) (a x0 : Z) : Z * Z * list Z :=
  let w1 := a mod 2 ^ 32 in
  if Fit_In_16bits w1 then (code o, set_i8 (set_i16 0 w1) x0, []) else (code o + 1, set_i8 0 x0, [w1]).
Definition int_x0 (o : bcop) (l x0 : Z) : Z * Z * list Z :=
  if Fit_In_16bits l then (code o, set_i8 (set_i16 0 l) x0, []) else (code o + 1, set_i8 0 x0, [u0 l; u1 l]).
Definition jump (o : bcop) (t : table) (cf cn f n : Z) : Z * Z * list Z :=
  let w := set_i24 0 n in
  match t f n with
  | Some (Pred true p) => (code o + 1, w, [f mod 2 ^ 32; u0 p; u1 p])
  | _ => (code o, w, [f mod 2 ^ 32; Functor_Arity cf cn mod 2 ^ 32])
  end.
Definition words (t : table) (cf cn : Z) (i : wam) : Z * Z * list Z :=
  match i with
  | get_variable r x0 => xy_x0 GET_X_VARIABLE r x0
  | get_value r x0 => xy_x0 GET_X_VALUE r x0
  | put_variable r x0 => xy_x0 PUT_X_VARIABLE r x0
  | put_value r x0 => xy_x0 PUT_X_VALUE r x0
  | put_unsafe_value r x0 => xy_x0 PUT_Y_VALUE r x0           (* PUT_Y_UNSAFE_VALUE - 1 *)
  | math_load_value r x0 => xy_x0 MATH_LOAD_X_VALUE r x0
  | get_atom a x0 => atom_x0 GET_ATOM a x0
  | put_atom a x0 => atom_x0 PUT_ATOM a x0
  | get_integer l x0 => int_x0 GET_INTEGER l x0
  | put_integer l x0 => int_x0 PUT_INTEGER l x0
  | get_float d x0 => (code GET_FLOAT, set_i8 0 x0, [u0 d; u1 d])
  | put_float d x0 => (code PUT_FLOAT, set_i8 0 x0, [u0 d; u1 d])
  | get_nil x0 => (code GET_NIL, set_i8 0 x0, [])
  | get_list x0 => (code GET_LIST, set_i8 0 x0, [])
  | put_nil x0 => (code PUT_NIL, set_i8 0 x0, [])
  | put_list x0 => (code PUT_LIST, set_i8 0 x0, [])
  | get_structure f n x0 => (code GET_STRUCTURE, set_i8 (set_i16 0 n) x0, [f mod 2 ^ 32])
  | put_structure f n x0 => (code PUT_STRUCTURE, set_i8 (set_i16 0 n) x0, [f mod 2 ^ 32])
  | put_void x0 => (code PUT_VOID, set_i8 0 x0, [])
  | unify_variable r => xy UNIFY_X_VARIABLE r
  | unify_value r => xy UNIFY_X_VALUE r
  | unify_local_value r => xy UNIFY_X_LOCAL_VALUE r
  | get_current_choice r => xy GET_CURRENT_CHOICE_X r
  | cut r => xy CUT_X r
  | soft_cut r => xy SOFT_CUT_X r
  | unify_atom a =>
    let w1 := a mod 2 ^ 32 in
    if Fit_In_24bits w1 then (code UNIFY_ATOM, set_i24 0 w1, []) else (code UNIFY_ATOM + 1, 0, [w1])
  | unify_integer l =>
    if Fit_In_24bits l then (code UNIFY_INTEGER, set_i24 0 l, []) else (code UNIFY_INTEGER + 1, 0, [u0 l; u1 l])
  | unify_structure f n => (code UNIFY_STRUCTURE, set_i24 0 n, [f mod 2 ^ 32])
  | unify_void n => (code UNIFY_VOID, set_i24 0 n, [])
  | allocate n => (code ALLOCATE, set_i24 0 n, [])
  | call f n => jump CALL t cf cn f n
  | execute f n => jump EXECUTE t cf cn f n
  | unify_nil => (code UNIFY_NIL, 0, [])
  | unify_list => (code UNIFY_LIST, 0, [])
  | deallocate => (code DEALLOCATE, 0, [])
  | proceed => (code PROCEED, 0, [])
  | fail => (code FAIL, 0, [])
  end.
(** ASSEMBLE_INST, bc_supp.c:509-528 *)
Definition assemble (x : Z * Z * list Z) : list Z := let '(o, w, l) := x in set_op w o :: l.
Definition encode (t : table) (cf cn : Z) (i : wam) : list Z := assemble (words t cf cn i).

(** bc_buff: its number of words is bc_nb_block * BC_BLOCK_SIZE; the words before bc_sp *)
Record buffer : Type := Buffer { blocks : Z; written : list Z }.
Definition BC_BLOCK_SIZE : Z := 1024.
(** *bc_sp++ = w; [None]: outside of the buffer *)
Fixpoint put (l : list Z) (b : buffer) : option buffer :=
  match l with
  | [] => Some b
  | w :: l =>
    if Z.of_nat (length (written b)) <? blocks b * BC_BLOCK_SIZE
    then put l (Buffer (blocks b) (written b ++ [w])) else None
  end.
(** bc_supp.c:441-444 Pl_BC_Start_Emit_0 *)
Definition Start_Emit (b : buffer) : buffer := Buffer (blocks b) [].
(** bc_supp.c:539-729 Pl_BC_Emit_Inst_1 *)
Definition Emit_Inst (t : table) (cf cn : Z) (i : wam) (b : buffer) : option buffer :=
  let size := Z.of_nat (length (written b)) in
  let b := if blocks b * BC_BLOCK_SIZE <=? size + 3 then Buffer (blocks b + 1) (written b) else b in
  put (encode t cf cn i) b.
(** /repo/src/BipsPl/consult.pl:505-509 '$bc_emit' *)
Fixpoint Emit (t : table) (cf cn : Z) (l : list wam) (b : buffer) : option buffer :=
  match l with
  | [] => Some b
  | i :: l => match Emit_Inst t cf cn i b with Some b => Emit t cf cn l b | None => None end
  end.
(** bc_supp.c:743-789 Pl_BC_Emit_Inst_Execute_Native, Pl_Emit_BC_Execute_Wrapper; no test of the size *)
Definition Execute_Wrapper (f n p : Z) (b : buffer) : option buffer :=
  put (assemble (code EXECUTE_NATIVE, set_i24 0 n, [f mod 2 ^ 32; u0 p; u1 p])) (Start_Emit b).

(** ** Emulation *)
(** what leaves a clause; [K]: where it goes on after a call *)
Inductive out (M K : Type) : Type :=
| Go (s : M) (k : K)                          (* bc_loop *)
| Fails                                       (* return ALTB(B) *)
| Proceeds (s : M)
| Jumps (p : Z) (s : M) (k : option K)        (* to native code *)
| Emulates (f n : Z) (s : M) (k : option K)   (* a dynamic predicate *)
| Unknown (f n cf cn : Z)                     (* existence error in cf/cn *)
| Bad                                         (* a register or a word which does not exist *)
| NoFuel.
Arguments Go {M K}. Arguments Fails {M K}. Arguments Proceeds {M K}. Arguments Jumps {M K}.
Arguments Emulates {M K}. Arguments Unknown {M K}. Arguments Bad {M K}. Arguments NoFuel {M K}.

Record machine : Type := Machine {
  M : Type; W : Type;                                   (* the state, the words *)
  X : M -> Z -> W; setX : M -> Z -> W -> M;
  Y : M -> Z -> W; setY : M -> Z -> W -> M;
  Unify : M -> W -> W -> option M;
  Get_Atom : M -> Z -> W -> option M; Get_Integer : M -> Z -> W -> option M; Get_Float : M -> Z -> W -> option M;
  Get_Nil : M -> W -> option M; Get_List : M -> W -> option M; Get_Structure : M -> Z -> Z -> W -> option M;
  Put_X_Variable : M -> W * M; Put_Y_Variable : M -> Z -> W * M; Put_Unsafe_Value : M -> W -> W * M;
  Put_Atom : Z -> W; Put_Integer : Z -> W; Put_Float : M -> Z -> W * M; NIL_WORD : W;
  Put_List : M -> W * M; Put_Structure : M -> Z -> Z -> W * M;
  Math_Load_Value : M -> W -> option (W * M);
  Unify_Variable : M -> W * M; Unify_Void : M -> Z -> M;
  Unify_Value : M -> W -> option M; Unify_Local_Value : M -> W -> option M;
  Unify_Atom : M -> Z -> option M; Unify_Integer : M -> Z -> option M;
  Unify_Nil : M -> option M; Unify_List : M -> option M; Unify_Structure : M -> Z -> Z -> option M;
  Allocate : M -> Z -> M; Deallocate : M -> M;
  Get_Current_Choice : M -> W; Cut : M -> W -> M; Soft_Cut : M -> W -> M }.

Section Emulator.
Variable K : machine.
Notation St := (M K).
(** NB_OF_X_REGS, EnginePl/pl_params.h:48: what is after X(255) is not an X register *)
Definition NB_OF_X_REGS : Z := 256.
Definition in_bank {R} (x : Z) (k : out St R) : out St R := if x <? NB_OF_X_REGS then k else Bad.
Definition rdX {R} (s : St) (x : Z) (k : W K -> out St R) : out St R := in_bank x (k (X K s x)).
Definition test {R} (o : option St) (k : St -> out St R) : out St R := match o with Some s => k s | None => Fails end.

(** one turn of bc_loop: bc_supp.c:1217-1629 BC_Emulate_Byte_Code; [t]: the predicates now *)
Definition bc_step (t : table) (bc : list Z) (bc_sp : nat) (s : St) : out St nat :=
  match nth_error bc bc_sp with
  | None => Bad
  | Some w =>
    let bc_sp := S bc_sp in
    let go s := Go s bc_sp in
    let x0 := i8 w in let n1 := i16 w in let n2 := i24 w in
    let next k := match nth_error bc bc_sp with None => Bad | Some w1 => k w1 end in
    let next2 k := match nth_error bc bc_sp, nth_error bc (S bc_sp) with
                   | Some a, Some b => k (of_u a b) (S (S bc_sp)) | _, _ => Bad end in
    let call_pred (c : option nat) :=
      next (fun f =>
        let func := to_int f in
        match t func n2 with
        | Some _ => Emulates func n2 s c
        | None =>
          match nth_error bc (S bc_sp) with
          | None => Bad
          | Some w1 => Unknown func n2 (Functor_Of (to_int w1)) (Arity_Of (to_int w1))
          end
        end) in
    let call_native (c : option nat) :=
      next (fun f => match nth_error bc (S bc_sp), nth_error bc (S (S bc_sp)) with
                     | Some a, Some b => Jumps (of_u a b) s c | _, _ => Bad end) in
    match of_code (BC_Op w) with
    | None => Fails
    | Some o =>
      match o with
      | GET_X_VARIABLE => rdX s x0 (fun v => in_bank n1 (go (setX K s n1 v)))
      | GET_Y_VARIABLE => rdX s x0 (fun v => go (setY K s n1 v))
      | GET_X_VALUE => rdX s n1 (fun u => rdX s x0 (fun v => test (Unify K s u v) go))
      | GET_Y_VALUE => rdX s x0 (fun v => test (Unify K s (Y K s n1) v) go)
      | GET_ATOM => rdX s x0 (fun v => test (Get_Atom K s n1 v) go)
      | GET_ATOM_BIG => rdX s x0 (fun v => next (fun w1 => test (Get_Atom K s (to_int w1) v) (fun s => Go s (S bc_sp))))
      | GET_INTEGER => rdX s x0 (fun v => test (Get_Integer K s n1 v) go)
      | GET_INTEGER_BIG => rdX s x0 (fun v => next2 (fun l p => test (Get_Integer K s (to_long l) v) (fun s => Go s p)))
      | GET_FLOAT => rdX s x0 (fun v => next2 (fun d p => test (Get_Float K s d v) (fun s => Go s p)))
      | GET_NIL => rdX s x0 (fun v => test (Get_Nil K s v) go)
      | GET_LIST => rdX s x0 (fun v => test (Get_List K s v) go)
      | GET_STRUCTURE => rdX s x0 (fun v => next (fun f => test (Get_Structure K s (to_int f) n1 v) (fun s => Go s (S bc_sp))))
      | PUT_X_VARIABLE =>
        in_bank x0 (in_bank n1 (let (v, s) := Put_X_Variable K s in go (setX K (setX K s x0 v) n1 v)))
      | PUT_Y_VARIABLE => in_bank x0 (let (v, s) := Put_Y_Variable K s n1 in go (setX K s x0 v))
      | PUT_VOID => in_bank x0 (let (v, s) := Put_X_Variable K s in go (setX K s x0 v))
      | PUT_X_VALUE => rdX s n1 (fun v => in_bank x0 (go (setX K s x0 v)))
      | PUT_Y_VALUE => in_bank x0 (go (setX K s x0 (Y K s n1)))
      | PUT_Y_UNSAFE_VALUE => in_bank x0 (let (v, s) := Put_Unsafe_Value K s (Y K s n1) in go (setX K s x0 v))
      | PUT_ATOM => in_bank x0 (go (setX K s x0 (Put_Atom K n1)))
      | PUT_ATOM_BIG => in_bank x0 (next (fun w1 => Go (setX K s x0 (Put_Atom K (to_int w1))) (S bc_sp)))
      | PUT_INTEGER => in_bank x0 (go (setX K s x0 (Put_Integer K n1)))
      | PUT_INTEGER_BIG => in_bank x0 (next2 (fun l p => Go (setX K s x0 (Put_Integer K (to_long l))) p))
      | PUT_FLOAT => in_bank x0 (next2 (fun d p => let (v, s) := Put_Float K s d in Go (setX K s x0 v) p))
      | PUT_NIL => in_bank x0 (go (setX K s x0 (NIL_WORD K)))
      | PUT_LIST => in_bank x0 (let (v, s) := Put_List K s in go (setX K s x0 v))
      | PUT_STRUCTURE => in_bank x0 (next (fun f => let (v, s) := Put_Structure K s (to_int f) n1 in Go (setX K s x0 v) (S bc_sp)))
      | MATH_LOAD_X_VALUE => rdX s n1 (fun v => in_bank x0 (match Math_Load_Value K s v with Some (v, s) => go (setX K s x0 v) | None => Fails end))
      | MATH_LOAD_Y_VALUE => in_bank x0 (match Math_Load_Value K s (Y K s n1) with Some (v, s) => go (setX K s x0 v) | None => Fails end)
      | UNIFY_X_VARIABLE => in_bank n2 (let (v, s) := Unify_Variable K s in go (setX K s n2 v))
      | UNIFY_Y_VARIABLE => let (v, s) := Unify_Variable K s in go (setY K s n2 v)
      | UNIFY_VOID => go (Unify_Void K s n2)
      | UNIFY_X_VALUE => rdX s n2 (fun v => test (Unify_Value K s v) go)
      | UNIFY_Y_VALUE => test (Unify_Value K s (Y K s n2)) go
      | UNIFY_X_LOCAL_VALUE => rdX s n2 (fun v => test (Unify_Local_Value K s v) go)
      | UNIFY_Y_LOCAL_VALUE => test (Unify_Local_Value K s (Y K s n2)) go
      | UNIFY_ATOM => test (Unify_Atom K s n2) go
      | UNIFY_ATOM_BIG => next (fun w1 => test (Unify_Atom K s (to_int w1)) (fun s => Go s (S bc_sp)))
      | UNIFY_INTEGER => test (Unify_Integer K s n2) go
      | UNIFY_INTEGER_BIG => next2 (fun l p => test (Unify_Integer K s (to_long l)) (fun s => Go s p))
      | UNIFY_NIL => test (Unify_Nil K s) go
      | UNIFY_LIST => test (Unify_List K s) go
      | UNIFY_STRUCTURE => next (fun f => test (Unify_Structure K s (to_int f) n2) (fun s => Go s (S bc_sp)))
      | ALLOCATE => go (Allocate K s n2)
      | DEALLOCATE => go (Deallocate K s)
      | CALL => call_pred (Some (bc_sp + 2)%nat)                  (* BC_BEFORE_CALL(bc_sp + 2) *)
      | EXECUTE => call_pred None
      | CALL_NATIVE => call_native (Some (bc_sp + 3)%nat)         (* 1 + WORD_SIZE / 32 *)
      | EXECUTE_NATIVE => call_native None
      | PROCEED => Proceeds s
      | FAIL => Fails
      | GET_CURRENT_CHOICE_X => in_bank n2 (go (setX K s n2 (Get_Current_Choice K s)))
      | GET_CURRENT_CHOICE_Y => go (setY K s n2 (Get_Current_Choice K s))
      | CUT_X => rdX s n2 (fun v => go (Cut K s v))
      | CUT_Y => go (Cut K s (Y K s n2))
      | SOFT_CUT_X => rdX s n2 (fun v => go (Soft_Cut K s v))
      | SOFT_CUT_Y => go (Soft_Cut K s (Y K s n2))
      end
    end
  end.
Fixpoint Emulate_Byte_Code (fuel : nat) (t : table) (bc : list Z) (bc_sp : nat) (s : St) : out St nat :=
  match fuel with
  | O => NoFuel
  | S fuel =>
    match bc_step t bc bc_sp s with
    | Go s p => Emulate_Byte_Code fuel t bc p s
    | r => r
    end
  end.
End Emulator.

(** ** The continuation *)
(** bc_supp.c:940-954 BC_BEFORE_CALL, BC_AFTER_CALL: the address of the next word and the flag
    debug_call in one word; [base]: the address of the byte-code *)
Definition save_pc (base : Z) (bc_sp : nat) (debug_call : bool) : Z := Z.lor (base + 4 * Z.of_nat bc_sp) (Z.b2z debug_call).
Definition restore_pc (base w : Z) : Z * bool := ((Z.land w (Z.lnot 1) - base) / 4, Z.testbit w 0).

(** ** Registers of a call (C68) *)
(** pl_reg_bank: the X registers and, from NB_OF_X_REGS on, the registers of the engine which are not in
    machine registers (EnginePl/wam_archi.def:58-80, pl_config.c:676-705) *)
Definition bank : Type := Z -> Z.
Definition set_bank (b : bank) (i v : Z) : bank := fun j => if j =? i then v else b j.
Definition A_regs (b : bank) (n : nat) : list Z := map (fun i => b (Z.of_nat i)) (seq 0 n).
(** bc_supp.c:1077-1094 Pl_BC_Emulate_Pred: the registers and the saved arguments when the clause is
    looked for *)
Definition Emulate_Pred (b : bank) (arity : nat) (choice debug_call : Z) : bank * list Z :=
  let b := set_bank b (Z.of_nat arity) choice in
  let b := set_bank b (Z.of_nat arity + 1) debug_call in
  (b, A_regs b (arity + 2)).
(** bc_supp.c:1114-1133 BC_Emulate_Pred_Alt: the registers and debug_call for the next clause; [None]: a
    read after the saved words *)
Fixpoint copy_back (n : nat) (i : Z) (w : list Z) (b : bank) : option (bank * list Z) :=
  match w with
  | [] => None
  | v :: w =>
    let b := set_bank b i v in
    match n with O => Some (b, w) | S n => copy_back n (i + 1) w b end
  end.
Definition Emulate_Pred_Alt (b : bank) (arity : nat) (w : list Z) : option (bank * Z) :=
  match copy_back arity 0 w b with
  | Some (b, d :: _) => Some (b, d)
  | _ => None
  end.
