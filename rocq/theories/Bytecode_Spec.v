(** What the byte-code of a clause should do (C67): the instructions of the clause one after the other. *)
Require Import ZArith List Bool.
Require Import Verif.Bytecode_Model.
Import ListNotations.
Open Scope Z_scope.

Section Wam.
Variable K : machine.
Notation St := (M K).
Definition rd (s : St) (r : reg) : W K := match r with RX n => X K s n | RY n => Y K s n end.
Definition wr (s : St) (r : reg) (v : W K) : St := match r with RX n => setX K s n v | RY n => setY K s n v end.

(** the next state, or failure *)
Definition step (s : St) (i : wam) : option St :=
  match i with
  | get_variable r x0 => Some (wr s r (X K s x0))
  | get_value r x0 => Unify K s (rd s r) (X K s x0)
  | get_atom a x0 => Get_Atom K s a (X K s x0)
  | get_integer l x0 => Get_Integer K s l (X K s x0)
  | get_float d x0 => Get_Float K s d (X K s x0)
  | get_nil x0 => Get_Nil K s (X K s x0)
  | get_list x0 => Get_List K s (X K s x0)
  | get_structure f n x0 => Get_Structure K s f n (X K s x0)
  | put_variable (RX n) x0 => let (v, s) := Put_X_Variable K s in Some (setX K (setX K s x0 v) n v)
  | put_variable (RY n) x0 => let (v, s) := Put_Y_Variable K s n in Some (setX K s x0 v)
  | put_void x0 => let (v, s) := Put_X_Variable K s in Some (setX K s x0 v)
  | put_value r x0 => Some (setX K s x0 (rd s r))
  | put_unsafe_value r x0 => let (v, s) := Put_Unsafe_Value K s (rd s r) in Some (setX K s x0 v)
  | put_atom a x0 => Some (setX K s x0 (Put_Atom K a))
  | put_integer l x0 => Some (setX K s x0 (Put_Integer K l))
  | put_float d x0 => let (v, s) := Put_Float K s d in Some (setX K s x0 v)
  | put_nil x0 => Some (setX K s x0 (NIL_WORD K))
  | put_list x0 => let (v, s) := Put_List K s in Some (setX K s x0 v)
  | put_structure f n x0 => let (v, s) := Put_Structure K s f n in Some (setX K s x0 v)
  | math_load_value r x0 => match Math_Load_Value K s (rd s r) with Some (v, s) => Some (setX K s x0 v) | None => None end
  | unify_variable r => let (v, s) := Unify_Variable K s in Some (wr s r v)
  | unify_void n => Some (Unify_Void K s n)
  | unify_value r => Unify_Value K s (rd s r)
  | unify_local_value r => Unify_Local_Value K s (rd s r)
  | unify_atom a => Unify_Atom K s a
  | unify_integer l => Unify_Integer K s l
  | unify_nil => Unify_Nil K s
  | unify_list => Unify_List K s
  | unify_structure f n => Unify_Structure K s f n
  | allocate n => Some (Allocate K s n)
  | deallocate => Some (Deallocate K s)
  | get_current_choice r => Some (wr s r (Get_Current_Choice K s))
  | cut r => Some (Cut K s (rd s r))
  | soft_cut r => Some (Soft_Cut K s (rd s r))
  | call _ _ | execute _ _ | proceed | fail => None
  end.

(** the clause of the predicate [cf]/[cn] until a call, a failure or its end *)
Definition leave {R} (t : table) (cf cn f n : Z) (s : St) (k : option R) : out St R :=
  match t f n with
  | None => Unknown f n cf cn
  | Some (Pred true p) => Jumps p s k
  | Some (Pred false _) => Emulates f n s k
  end.
Fixpoint wam_run (t : table) (cf cn : Z) (l : list wam) (s : St) : out St (list wam) :=
  match l with
  | [] => Bad
  | call f n :: l => leave t cf cn f n s (Some l)
  | execute f n :: _ => leave t cf cn f n s None
  | proceed :: _ => Proceeds s
  | fail :: _ => Fails
  | i :: l => match step s i with Some s => wam_run t cf cn l s | None => Fails end
  end.

(** the same result; the words after the call are the code of the rest of the clause *)
Definition cont_of (enc : wam -> list Z) (bc : list Z) (k : option nat) (k' : option (list wam)) : Prop :=
  match k, k' with
  | None, None => True
  | Some p, Some l => skipn p bc = flat_map enc l
  | _, _ => False
  end.
Definition same_out (enc : wam -> list Z) (bc : list Z) (a : out St nat) (b : out St (list wam)) : Prop :=
  match a, b with
  | Fails, Fails => True
  | Proceeds s, Proceeds s' => s = s'
  | Jumps p s k, Jumps p' s' k' => p = p' /\ s = s' /\ cont_of enc bc k k'
  | Emulates f n s k, Emulates f' n' s' k' => f = f' /\ n = n' /\ s = s' /\ cont_of enc bc k k'
  | Unknown f n cf cn, Unknown f' n' cf' cn' => f = f' /\ n = n' /\ cf = cf' /\ cn = cn'
  | _, _ => False
  end.
End Wam.

(** ** What the byte-code can represent *)
Definition x_fits (x : Z) : Prop := 0 <= x < 256.                (* the X registers *)
Definition r_fits (bits : Z) (r : reg) : Prop :=
  match r with RX x => x_fits x | RY y => 0 <= y < 2 ^ bits end.
Definition atom_fits (a : Z) : Prop := 0 <= a < 2 ^ 31.          (* an index in the table of the atoms: int *)
Definition fits (i : wam) : Prop :=
  match i with
  | get_variable r x0 | get_value r x0 | put_variable r x0 | put_value r x0 | math_load_value r x0 =>
    r_fits 16 r /\ x_fits x0
  | put_unsafe_value r x0 => (exists y, r = RY y) /\ r_fits 16 r /\ x_fits x0
  | get_atom a x0 | put_atom a x0 => atom_fits a /\ x_fits x0
  | get_integer l x0 | put_integer l x0 => - 2 ^ 63 <= l < 2 ^ 63 /\ x_fits x0
  | get_float d x0 | put_float d x0 => 0 <= d < 2 ^ 64 /\ x_fits x0
  | get_nil x0 | get_list x0 | put_nil x0 | put_list x0 | put_void x0 => x_fits x0
  | get_structure f n x0 | put_structure f n x0 => atom_fits f /\ 0 <= n < 2 ^ 16 /\ x_fits x0
  | unify_variable r | unify_value r | unify_local_value r | get_current_choice r | cut r | soft_cut r => r_fits 24 r
  | unify_atom a => atom_fits a
  | unify_integer l => - 2 ^ 63 <= l < 2 ^ 63
  | unify_structure f n | call f n | execute f n => atom_fits f /\ 0 <= n < 2 ^ 24
  | unify_void n | allocate n => 0 <= n < 2 ^ 24
  | unify_nil | unify_list | deallocate | proceed | fail => True
  end.
(** a clause ends with one of them *)
Definition closes (i : wam) : bool := match i with execute _ _ | proceed | fail => true | _ => false end.
(** a predicate which was native code when the clause was loaded is still the same native code, and the
    others have not become native code; addresses have 64 bits *)
Definition stable (t t' : table) : Prop :=
  forall f n p, (t f n = Some (Pred true p) <-> t' f n = Some (Pred true p)) /\
    (t f n = Some (Pred true p) -> 0 <= p < 2 ^ 64).
