(** Instructions that copy a variable into a register or into the heap, on the memory
    of Heap_Model.v.  /repo/src/EnginePl/wam_inst.h, wam_inst.c. *)
Require Import ZArith List Bool.
Require Import Verif.Heap_Model Verif.Unify_Model.
Import ListNotations.
Open Scope Z_scope.

(** memory, trail and the register H *)
Record hst := Hst { hm : st; hH : addr }.

(** Globalize_Local_Unbound_Var, wam_inst.h:543-553: a new variable on the heap, the
    local variable is bound to it *)
Definition Globalize_Local_Unbound_Var (c : cfg) (s : hst) (a : addr) : word * hst :=
  let h := hH s in
  let s1 := St (store (mm (hm s)) h (Word (REF h))) (tr (hm s)) in
  (REF h, Hst (Bind_UV c s1 a (REF h)) (h + 1)).

(** Global_Push, wam_inst.h:183 *)
Definition Global_Push (s : hst) (w : word) : hst :=
  Hst (St (store (mm (hm s)) (hH s) (Word w)) (tr (hm s))) (hH s + 1).

(** Pl_Put_Unsafe_Value, wam_inst.c:452-471; [ee] is EE(E), the previous environment *)
Definition Put_Unsafe_Value (fuel : nat) (c : cfg) (ee : addr) (s : hst) (w : word)
  : outcome (word * hst) :=
  do w <- deref fuel (mm (hm s)) w;
  match w with
  | REF a => if ee <=? a then Ret (Globalize_Local_Unbound_Var c s a) else Ret (w, s)
  | _ => Ret (Do_Copy_Of_Word w, s)
  end.

(** Pl_Unify_Local_Value in write mode, wam_inst.c:786-807 *)
Definition Unify_Local_Value (fuel : nat) (c : cfg) (s : hst) (w : word) : outcome hst :=
  do w <- deref fuel (mm (hm s)) w;
  match w with
  | REF a => if Is_A_Local_Adr c a then Ret (snd (Globalize_Local_Unbound_Var c s a))
             else Ret (Global_Push s w)
  | _ => Ret (Global_Push s (Do_Copy_Of_Word w))
  end.

(** Pl_Put_Y_Variable, wam_inst.c:438-442: a variable in the environment *)
Definition Put_Y_Variable (s : hst) (y : addr) : word * hst :=
  (REF y, Hst (St (store (mm (hm s)) y (Word (REF y))) (tr (hm s))) (hH s)).
