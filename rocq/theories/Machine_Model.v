(** The control part of the abstract machine: local and global stacks, environments,
    choice points, conditional trailing, untrailing, cuts.  Memory holds raw words. *)
Require Import ZArith List Bool.
Require Import Verif.Heap_Model.
Import ListNotations.
Open Scope Z_scope.

(** Addresses count words.  A raw word that holds an address holds 8 times it
    (byte address, TAG_REF is 0). *)
Definition rmem := Z -> Z.
(** /repo/src/EnginePl/wam_archi.def Make_Self_Ref *)
Definition Make_Self_Ref (a : Z) : Z := 8 * a.
Definition upd (m : rmem) (a v : Z) : rmem := fun b => if b =? a then v else m b.
Fixpoint upd_list (m : rmem) (a : Z) (vs : list Z) : rmem :=
  match vs with [] => m | v :: vs => upd_list (upd m a v) (a + 1) vs end.
Fixpoint get_list (m : rmem) (a : Z) (n : nat) : list Z :=
  match n with O => [] | S n => m a :: get_list m (a + 1) n end.

(** wam_inst.h:100-109 trail tags *)
Definition TAG_TUV := 0. Definition TAG_TOV := 1. Definition TAG_TMV := 2. Definition TAG_TFC := 3.
Definition Trail_Tag_Value (t a : Z) : Z := Z.lor (8 * a) t.
Definition Trail_Tag_Of (w : Z) : Z := Z.land w 3.
Definition Trail_Value_Of (w : Z) : Z := Z.land w (Z.lnot 3) / 8.

(** wam_inst.h:62-92 frame sizes *)
Definition ENVIR_STATIC_SIZE := 2.
Definition CHOICE_STATIC_SIZE := 7.

Section Machine.
(** state outside the stacks, and the C functions called by untrailing (TFC) *)
Variable X : Type.
Variable call : Z -> list Z -> X -> X.
(** start of the local stack; the global stack lies below *)
Variable LSSA : Z.

(** registers (wam_archi.def) and memory; [TR] is the trail, top word first *)
Record mstate := MS {
  mem : rmem; xs : X; H : Z; E : Z; B : Z; HB1 : Z; CP : Z; CS : Z; STAMP : Z;
  TR : list Z; A : Z -> Z
}.

(** wam_archi.def:118 *)
Definition Local_Top (s : mstate) : Z := if E s <=? B s then B s else E s.
(** wam_inst.h:197 *)
Definition Is_A_Local_Adr (a : Z) : bool := LSSA <=? a.
(** wam_inst.h:451-452 *)
Definition Word_Needs_Trailing (s : mstate) (a : Z) : bool :=
  (a <? HB1 s) || (Is_A_Local_Adr a && (a <? B s)).

(** choice point frame, wam_inst.h:75-92 *)
Definition ALTB (m : rmem) (b : Z) := m (b - 1).
Definition CPB (m : rmem) (b : Z) := m (b - 2).
Definition EB (m : rmem) (b : Z) := m (b - 3).
Definition BB (m : rmem) (b : Z) := m (b - 4).
Definition HB (m : rmem) (b : Z) := m (b - 5).
Definition TRB (m : rmem) (b : Z) := m (b - 6).
Definition CSB (m : rmem) (b : Z) := m (b - 7).

(** the words pushed by Trail_UV, Trail_OV, Trail_MV, Trail_FC, wam_inst.h:492-529
    (top first) *)
Definition Trail_UV (a : Z) : list Z := [Trail_Tag_Value TAG_TUV a].
Definition Trail_OV (m : rmem) (a : Z) : list Z := [Trail_Tag_Value TAG_TOV a; m a].
Definition Trail_MV (m : rmem) (a : Z) (nb : nat) : list Z :=
  Trail_Tag_Value TAG_TMV a :: Z.of_nat nb :: rev (get_list m a nb).
Definition Trail_FC (f : Z) (args : list Z) : list Z :=
  Trail_Tag_Value TAG_TFC 0 :: f :: Z.of_nat (length args) :: rev args.

Definition set_mem s m := MS m (xs s) (H s) (E s) (B s) (HB1 s) (CP s) (CS s) (STAMP s) (TR s) (A s).
Definition push_tr s l :=
  MS (mem s) (xs s) (H s) (E s) (B s) (HB1 s) (CP s) (CS s) (STAMP s) (l ++ TR s) (A s).

(** Pl_Untrail, wam_inst.c:1724-1759; [low] is the height of the trail to go down to *)
Fixpoint Untrail (fuel : nat) (low : nat) (tr : list Z) (m : rmem) (x : X)
  : outcome (list Z * rmem * X) :=
  if Nat.leb (length tr) low then Ret (tr, m, x) else
  match fuel with
  | O => NoFuel
  | S fuel =>
    match tr with
    | [] => UB
    | w :: tr =>
      let a := Trail_Value_Of w in
      let t := Trail_Tag_Of w in
      if t =? TAG_TUV then Untrail fuel low tr (upd m a (Make_Self_Ref a)) x
      else if t =? TAG_TOV then
        match tr with
        | v :: tr => Untrail fuel low tr (upd m a v) x
        | [] => UB
        end
      else if t =? TAG_TMV then
        match tr with
        | nb :: tr =>
          let n := Z.to_nat nb in
          if (nb <=? 0) || Nat.ltb (length tr) n then UB     (* do-while in Mem_Word_Cpy *)
          else Untrail fuel low (skipn n tr) (upd_list m a (rev (firstn n tr))) x
        | [] => UB
        end
      else
        match tr with
        | f :: nb :: tr =>
          let n := Z.to_nat nb in
          if (nb <? 0) || Nat.ltb (length tr) n then UB
          else Untrail fuel low (skipn n tr) m (call f (rev (firstn n tr)) x)
        | _ => UB
        end
    end
  end.

(** Assign_B, wam_inst.h:534 *)
Definition Assign_B (s : mstate) (b : Z) : mstate :=
  MS (mem s) (xs s) (H s) (E s) b (HB (mem s) b) (CP s) (CS s) (STAMP s) (TR s) (A s).

(** Pl_Create_Choice_Point, wam_inst.c:1404-1420, 1451-1461 *)
Definition Create_Choice_Point (s : mstate) (alt : Z) (arity : nat) : mstate :=
  let cur := Local_Top s + CHOICE_STATIC_SIZE + Z.of_nat arity in
  let m := mem s in
  let m := upd m (cur - 1) alt in
  let m := upd m (cur - 2) (CP s) in
  let m := upd m (cur - 3) (E s) in
  let m := upd m (cur - 4) (B s) in
  let m := upd m (cur - 5) (H s) in
  let m := upd m (cur - 6) (Z.of_nat (length (TR s))) in
  let m := upd m (cur - 7) (CS s) in
  let m := fold_left (fun m i => upd m (cur - 8 - Z.of_nat i) (A s (Z.of_nat i))) (seq 0 arity) m in
  MS m (xs s) (H s) (E s) cur (H s) (CP s) (CS s) (STAMP s + 1) (TR s) (A s).

(** UPDATE_DELETE_COMMON_PART, wam_inst.c:1424-1432 *)
Definition update_delete_common (s : mstate) : outcome mstate :=
  let b := B s in
  do r <- Untrail (length (TR s)) (Z.to_nat (TRB (mem s) b)) (TR s) (mem s) (xs s);
  let '(tr, m, x) := r in
  Ret (MS m x (HB m b) (EB m b) b (HB1 s) (CPB m b) (CSB m b) (STAMP s) tr (A s)).
(** restoring the argument registers, wam_inst.c:1529-1536, 1612-1619 *)
Definition restore_args (s : mstate) (b : Z) (arity : nat) : mstate :=
  MS (mem s) (xs s) (H s) (E s) (B s) (HB1 s) (CP s) (CS s) (STAMP s) (TR s)
    (fun i => if (0 <=? i) && (i <? Z.of_nat arity) then mem s (b - 8 - i) else A s i).

Definition Update_Choice_Point (s : mstate) (alt : Z) (arity : nat) : outcome mstate :=
  let b := B s in
  do s <- update_delete_common s;
  let s := set_mem s (upd (mem s) (b - 1) alt) in
  let s := MS (mem s) (xs s) (H s) (E s) (B s) (H s) (CP s) (CS s) (STAMP s) (TR s) (A s) in
  Ret (restore_args s b arity).

Definition Delete_Choice_Point (s : mstate) (arity : nat) : outcome mstate :=
  let b := B s in
  do s <- update_delete_common s;
  let s := Assign_B s (BB (mem s) b) in
  let s := MS (mem s) (xs s) (H s) (E s) (B s) (HB1 s) (CP s) (CS s) (STAMP s - 1) (TR s) (A s) in
  Ret (restore_args s b arity).

(** Pl_Cut, wam_inst.c:1303-1306 (the word is converted by From_WamWord_To_B) *)
Definition Cut (s : mstate) (b : Z) : mstate := Assign_B s b.

(** Pl_Soft_Cut, wam_inst.c:1317-1347 *)
Fixpoint soft_cut_loop (fuel : nat) (m : rmem) (cur kill : Z) : outcome rmem :=
  match fuel with
  | O => NoFuel
  | S fuel =>
    let prev := BB m cur in
    if prev =? kill then Ret (upd m (cur - 4) (BB m kill))
    else if cur <? kill then Ret m
    else soft_cut_loop fuel m prev kill
  end.
Definition Soft_Cut (fuel : nat) (s : mstate) (kill : Z) : outcome mstate :=
  if B s =? kill then Ret (Assign_B s (BB (mem s) (B s)))
  else do m <- soft_cut_loop fuel (mem s) (B s) kill; Ret (set_mem s m).

(** Pl_Allocate, Pl_Deallocate, wam_inst.c:1025-1066 *)
Definition Allocate (s : mstate) (n : nat) : mstate :=
  let cur := Local_Top s + ENVIR_STATIC_SIZE + Z.of_nat n in
  let m := upd (mem s) (cur - 1) (CP s) in
  let m := upd m (cur - 2) (E s) in
  MS m (xs s) (H s) cur (B s) (HB1 s) (CP s) (CS s) (STAMP s) (TR s) (A s).
Definition Deallocate (s : mstate) : mstate :=
  MS (mem s) (xs s) (H s) (mem s (E s - 2)) (B s) (HB1 s) (mem s (E s - 1)) (CS s) (STAMP s) (TR s) (A s).

(** what a program does between calls: build terms, bind variables, trailed
    assignments (Bind_OV: setarg; Trail_OV, Trail_MV: FD; Trail_FC: global variables),
    initialise environment slots (put_y_variable, get_y_variable), set registers *)
Inductive op : Type :=
| OPush (v : Z)                      (* *H++ = v *)
| OBind (a v : Z)                    (* Bind_UV, wam_inst.h:456 *)
| OBindOV (a v : Z)                  (* Bind_OV, wam_inst.h:468 *)
| OTrailOV (a v : Z)                 (* Trail_OV then assignment *)
| OTrailMV (a : Z) (vs : list Z)     (* Trail_MV then assignment *)
| OTrailFC (f : Z) (args : list Z) (x : X)   (* Trail_FC, the outside state becomes x *)
| OGlobalize (a : Z)                 (* Globalize_Local_Unbound_Var, wam_inst.h:543 *)
| OAllocate (n : nat)
| ODeallocate
| OInitY (y : Z) (v : Z)             (* Y(E, y) = v *)
| OSetA (i v : Z) | OSetCP (v : Z) | OSetCS (v : Z)
| OCreate (alt : Z) (arity : nat)
| OUpdate (alt : Z) (arity : nat)
| ODelete (arity : nat)
| OCut (b : Z)
| OSoftCut (b : Z).

Definition push_H (s : mstate) (v : Z) : mstate :=
  MS (upd (mem s) (H s) v) (xs s) (H s + 1) (E s) (B s) (HB1 s) (CP s) (CS s) (STAMP s) (TR s) (A s).
Definition Bind_UV (s : mstate) (a v : Z) : mstate :=
  let s := if Word_Needs_Trailing s a then push_tr s (Trail_UV a) else s in
  set_mem s (upd (mem s) a v).
Definition Bind_OV (s : mstate) (a v : Z) : mstate :=
  let s := if Word_Needs_Trailing s a then push_tr s (Trail_OV (mem s) a) else s in
  set_mem s (upd (mem s) a v).
Definition Globalize (s : mstate) (a : Z) : mstate :=
  let h := H s in Bind_UV (push_H s (Make_Self_Ref h)) a (Make_Self_Ref h).

Definition exec (s : mstate) (o : op) : outcome mstate :=
  match o with
  | OPush v => Ret (push_H s v)
  | OBind a v => Ret (Bind_UV s a v)
  | OBindOV a v => Ret (Bind_OV s a v)
  | OTrailOV a v => Ret (set_mem (push_tr s (Trail_OV (mem s) a)) (upd (mem s) a v))
  | OTrailMV a vs =>
    Ret (set_mem (push_tr s (Trail_MV (mem s) a (length vs))) (upd_list (mem s) a vs))
  | OTrailFC f args x =>
    let s' := push_tr s (Trail_FC f args) in
    Ret (MS (mem s') x (H s') (E s') (B s') (HB1 s') (CP s') (CS s') (STAMP s') (TR s') (A s'))
  | OGlobalize a => Ret (Globalize s a)
  | OAllocate n => Ret (Allocate s n)
  | ODeallocate => Ret (Deallocate s)
  | OInitY y v => Ret (set_mem s (upd (mem s) (E s - 3 - y) v))
  | OSetA i v =>
    Ret (MS (mem s) (xs s) (H s) (E s) (B s) (HB1 s) (CP s) (CS s) (STAMP s) (TR s)
           (fun j => if j =? i then v else A s j))
  | OSetCP v => Ret (MS (mem s) (xs s) (H s) (E s) (B s) (HB1 s) v (CS s) (STAMP s) (TR s) (A s))
  | OSetCS v => Ret (MS (mem s) (xs s) (H s) (E s) (B s) (HB1 s) (CP s) v (STAMP s) (TR s) (A s))
  | OCreate alt ar => Ret (Create_Choice_Point s alt ar)
  | OUpdate alt ar => Update_Choice_Point s alt ar
  | ODelete ar => Delete_Choice_Point s ar
  | OCut b => Ret (Cut s b)
  | OSoftCut b => Soft_Cut (Z.to_nat (B s - LSSA)) s b
  end.
End Machine.
