(** The constraint stack and what is trailed about finite domain variables: /repo/src/EngineFD/fd_inst.c, fd_inst.h,
    and the choice points of /repo/src/EnginePl/wam_inst.c:1404-1446 as far as CS, TR and STAMP are concerned.
    Memory is the words of the constraint stack; a word that holds an address holds the address, NULL is 0.
    The values that are stored (new bounds, new vectors) are parameters: what they must be is C27-C30. *)
Require Import ZArith List Bool.
Require Import Verif.Word_Model Verif.Heap_Model.
Import ListNotations.
Open Scope Z_scope.

Definition wmem := Z -> Z.
Definition wr (m : wmem) (a v : Z) : wmem := fun b => if b =? a then v else m b.
Fixpoint wrs (m : wmem) (a : Z) (vs : list Z) : wmem := match vs with [] => m | v :: vs => wrs (wr m a v) (a + 1) vs end.
Fixpoint rds (m : wmem) (a : Z) (n : nat) : list Z := match n with O => [] | S n => m a :: rds m (a + 1) n end.

(** trail entries (wam_inst.h:492-529; as words: Machine_Model.v) *)
Inductive entry := TOV (a v : Z) | TMV (a : Z) (vs : list Z).
(** CSB, TRB (a height) of a choice point *)
Record cp := Cp { c_cs : Z; c_tr : nat }.
(** the newest choice point first *)
Record st := St { m : wmem; cs : Z; stamp : Z; date : Z; tr : list entry; cps : list cp }.
Definition set_m (s : st) (v : wmem) : st := St v (cs s) (stamp s) (date s) (tr s) (cps s).
Definition set_cs (s : st) (v : Z) : st := St (m s) v (stamp s) (date s) (tr s) (cps s).
Definition push_tr (s : st) (e : entry) : st := St (m s) (cs s) (stamp s) (date s) (e :: tr s) (cps s).
Definition put (s : st) (a v : Z) : st := set_m s (wr (m s) a v).
Definition puts (s : st) (a : Z) (vs : list Z) : st := set_m s (wrs (m s) a vs).
Definition Trail_OV (s : st) (a : Z) : st := push_tr s (TOV a (m s a)).
Definition Trail_MV (s : st) (a : Z) (n : nat) : st := push_tr s (TMV a (rds (m s) a n)).

(** fd_inst.h:38-72.  Range (fd_range.h:54-61) is three words: extra_cstr and min, max, vec *)
Definition OFFSET_RANGE := 4. Definition RANGE_SIZE := 5%nat. Definition OFFSET_CHAINS := 9. Definition CHAINS_SIZE := 8%nat.
Definition FD_VARIABLE_FRAME_SIZE := 17. Definition FD_INT_VARIABLE_FRAME_SIZE := 9.
Definition FD_Tag_Value (x : Z) := x. Definition FD_INT_Date (x : Z) := x + 1.
Definition Queue_Propag_Mask (x : Z) := x + 2. Definition Queue_Next (x : Z) := x + 3.
Definition Range_Stamp (x : Z) := x + OFFSET_RANGE. Definition Nb_Elem (x : Z) := x + OFFSET_RANGE + 1.
Definition Range_w0 (x : Z) := x + OFFSET_RANGE + 2. Definition Range_w1 (x : Z) := x + OFFSET_RANGE + 3. Definition Vec (x : Z) := x + OFFSET_RANGE + 4.
Definition Chains_Stamp (x : Z) := x + OFFSET_CHAINS. Definition Nb_Cstr (x : Z) := x + OFFSET_CHAINS + 1.
Definition Chains_Mask (x : Z) := x + OFFSET_CHAINS + 2. Definition Chain (x k : Z) := x + OFFSET_CHAINS + 3 + k.
(** the two ints of a word *)
Definition low (w : Z) : Z := w mod 2 ^ 32.
Definition high (w : Z) : Z := s32 (w / 2 ^ 32).
Definition ints (lo hi : Z) : Z := lo mod 2 ^ 32 + 2 ^ 32 * (hi mod 2 ^ 32).
Definition Min (s : st) (x : Z) : Z := high (m s (Range_w0 x)).
Definition Max (s : st) (x : Z) : Z := s32 (m s (Range_w1 x)).
Definition set_Min (s : st) (x n : Z) : st := put s (Range_w0 x) (ints (m s (Range_w0 x)) n).
Definition set_Max (s : st) (x n : Z) : st := put s (Range_w1 x) (ints n (m s (Range_w1 x) / 2 ^ 32)).
Definition Is_Sparse (s : st) (x : Z) : bool := negb (m s (Vec x) =? 0).
Definition Fd_Variable_Is_Ground (s : st) (x : Z) : bool := Tag_Is_INT (m s x).
(** a range: extra_cstr, min, max and the words of the vector *)
Record rng := Rng { r_extra : Z; r_min : Z; r_max : Z; r_vec : option (list Z) }.

Section Fd.
(** pl_vec_size *)
Variable vs : nat.

(** ** What is trailed (fd_inst.c:196-255) *)
Definition FD_Word_Needs_Trailing (s : st) (a : Z) : bool := match cps s with c :: _ => a <? c_cs c | [] => false end.
Definition FD_Bind_OV (s : st) (a v : Z) : st := put (if FD_Word_Needs_Trailing s a then Trail_OV s a else s) a v.
Definition Trail_Range_If_Necessary (s : st) (x : Z) : st :=
  if m s (Range_Stamp x) =? stamp s then s
  else
    let s := Trail_MV s (x + OFFSET_RANGE) RANGE_SIZE in
    let s := if Is_Sparse s x then Trail_MV s (m s (Vec x)) vs else s in
    put s (Range_Stamp x) (stamp s).
Definition Trail_Chains_If_Necessary (s : st) (x : Z) : st :=
  if m s (Chains_Stamp x) =? stamp s then s
  else put (Trail_MV s (x + OFFSET_CHAINS) CHAINS_SIZE) (Chains_Stamp x) (stamp s).
Definition Trail_Fd_Int_Variable_If_Necessary (s : st) (x : Z) : st :=
  if FD_Word_Needs_Trailing s (FD_Tag_Value x) then
    Trail_Range_If_Necessary (Trail_OV (Trail_OV s (FD_Tag_Value x)) (FD_INT_Date x)) x
  else s.

(** ** Updates (fd_inst.c:259-375) *)
Definition Update_Range_From_Int (s : st) (x n : Z) : st :=
  let s := Trail_Fd_Int_Variable_If_Necessary s x in
  let s := put s (Nb_Elem x) 1 in
  let s := if Min s x =? n then s else set_Min s x n in
  let s := if Max s x =? n then s else set_Max s x n in
  let s := put s (Vec x) 0 in
  let s := put s (FD_Tag_Value x) (Tag_INT_ n) in
  put s (FD_INT_Date x) (date s).
Definition Update_Interval_From_Interval (s : st) (x nb mn mx : Z) : st :=
  if m s (Nb_Elem x) =? nb then s
  else
    let s := Trail_Range_If_Necessary s x in
    let s := put s (Nb_Elem x) nb in
    let s := if Min s x =? mn then s else set_Min s x mn in
    if Max s x =? mx then s else set_Max s x mx.
(** Pl_Range_Copy, fd_range.c:863-876, into the range of [x]; Vector_Allocate, fd_range.h:217-234 *)
Definition alloc_vec (s : st) (x : Z) : st :=
  if Is_Sparse s x then s else set_cs (put s (Vec x) (cs s)) (cs s + Z.of_nat vs).
Definition Range_Copy (s : st) (x : Z) (r : rng) : st :=
  let s := put s (Range_w0 x) (ints (r_extra r) (r_min r)) in
  let s := set_Max s x (r_max r) in
  match r_vec r with
  | None => put s (Vec x) 0
  | Some ws => let s := alloc_vec s x in puts s (m s (Vec x)) (firstn vs ws)
  end.
Definition Update_Range_From_Range (s : st) (x nb : Z) (r : rng) : st :=
  let propag := negb (Min s x =? r_min r) || negb (Max s x =? r_max r) || negb (m s (Nb_Elem x) =? nb) in
  if propag || (negb (Is_Sparse s x) && match r_vec r with Some _ => true | None => false end) then
    let s := Trail_Range_If_Necessary s x in
    let s := put s (Nb_Elem x) nb in
    Range_Copy s x r
  else if low (m s (Range_w0 x)) =? r_extra r then s
  else FD_Bind_OV s (Range_w0 x) (r_extra r).
(** Pl_Fd_Tell_Not_Value, fd_inst.c:1097-1099: Pl_Range_Becomes_Sparse (fd_range.c:986-999) makes a vector, and sets the
    maximum and extra_cstr when the interval is too large for a vector *)
Definition Tell_Not_Value_Sparse (s : st) (x nb e mn mx : Z) (ws : list Z) : st :=
  let s := Trail_Range_If_Necessary s x in
  let s := put s (Range_w0 x) (ints e mn) in
  let s := set_Max s x mx in
  let s := alloc_vec s x in
  let s := puts s (m s (Vec x)) (firstn vs ws) in
  put s (Nb_Elem x) nb.
(** fd_inst.c:1122-1146: word [i] of the vector gets a bit reset, the bounds may change *)
Definition Tell_Not_Value_Remove (s : st) (x : Z) (i w : Z) (mn mx : option Z) : st :=
  let s := Trail_Range_If_Necessary s x in
  let s := if Is_Sparse s x then put s (m s (Vec x) + i) w else s in
  let s := put s (Nb_Elem x) (m s (Nb_Elem x) - 1) in
  let s := match mn with Some n => set_Min s x n | None => s end in
  match mx with Some n => set_Max s x n | None => s end.

(** ** New objects *)
(** fd_inst.c:834-866; FDV has tag 5 *)
Definition Fd_New_Variable_Interval (s : st) (mn mx : Z) : st :=
  let x := cs s in
  let s := puts s x [x + 5; 1; 0; 0; stamp s; mx - mn + 1; ints 0 mn; ints mx 0; 0; stamp s; 0; 0; 0; 0; 0; 0; 0] in
  set_cs s (x + FD_VARIABLE_FRAME_SIZE).
(** fd_inst.c:886-894 *)
Definition Fd_New_Variable_Range (s : st) (imax nb : Z) (r : rng) : st :=
  let x := cs s in
  let s := Fd_New_Variable_Interval s 0 imax in
  put (Range_Copy s x r) (Nb_Elem x) nb.
(** fd_inst.c:903-920 *)
Definition Fd_New_Int_Variable (s : st) (n : Z) : st :=
  let x := cs s in
  let s := puts s x [Tag_INT_ n; 0; 0; 0; stamp s; 1; ints 0 n; ints n 0; 0] in
  set_cs s (x + FD_INT_VARIABLE_FRAME_SIZE).
(** an argument frame (fd_to_c.h:103-105), an array, a range and its vector (fd_inst.c:478-684) *)
Definition Alloc (s : st) (ws : list Z) : st := set_cs (puts s (cs s) ws) (cs s + Z.of_nat (length ws)).
(** fd_inst.c:766-781 *)
Definition Fd_Create_C_Frame (s : st) (fct AF optim : Z) (fdv : option Z) : st :=
  let CF := cs s in
  let s := puts s CF [AF; optim; fct] in
  let s := match fdv with Some x => if Fd_Variable_Is_Ground s x then s else put s (Nb_Cstr x) (m s (Nb_Cstr x) + 1) | None => s end in
  set_cs s (CF + 3).
(** fd_inst.c:790-810 *)
Definition Fd_Add_Dependency (s : st) (x chain_nb CF : Z) : st :=
  if Fd_Variable_Is_Ground s x then s
  else
    let s := Trail_Chains_If_Necessary s x in
    let s := put s (Chains_Mask x) (Z.lor (m s (Chains_Mask x)) (Z.shiftl 1 chain_nb)) in
    let a := Chain x chain_nb in
    let s := puts s (cs s) [CF; m s a] in
    let s := put s a (cs s) in
    set_cs s (cs s + 2).
(** fd_inst.c:1446-1451 *)
Definition Fd_Stop_Constraint (s : st) (CF v : Z) : st := FD_Bind_OV s (CF + 1) v.

(** ** Choice points *)
Definition undo1 (e : entry) (m : wmem) : wmem := match e with TOV a v => wr m a v | TMV a ws => wrs m a ws end.
(** Pl_Untrail, wam_inst.c:1724-1759: [n] entries *)
Fixpoint Untrail (n : nat) (t : list entry) (m : wmem) : list entry * wmem :=
  match n, t with S n, e :: t => Untrail n t (undo1 e m) | _, _ => (t, m) end.
(** wam_inst.c:1404-1418 *)
Definition Create_Choice_Point (s : st) : st := St (m s) (cs s) (stamp s + 1) (date s) (tr s) (Cp (cs s) (length (tr s)) :: cps s).
(** wam_inst.c:1424-1438 *)
Definition Update_Choice_Point (s : st) : outcome st :=
  match cps s with
  | c :: _ => let '(t, v) := Untrail (length (tr s) - c_tr c) (tr s) (m s) in Ret (St v (c_cs c) (stamp s) (date s) t (cps s))
  | [] => UB
  end.
(** wam_inst.c:1443-1446 *)
Definition Delete_Choice_Point (s : st) : outcome st :=
  do s <- Update_Choice_Point s; Ret (St (m s) (cs s) (stamp s - 1) (date s) (tr s) (tl (cps s))).
(** Pl_Cut, wam_inst.c:1303-1306: the [n] newest are forgotten; Delete_Last_Choice_Point, wam_inst.h:536, is [Cut 1] *)
Definition Cut (s : st) (n : nat) : st := St (m s) (cs s) (stamp s) (date s) (tr s) (skipn n (cps s)).
(** Pl_Soft_Cut, wam_inst.c:1317-1347: the [n]th is unlinked *)
Definition Soft_Cut (s : st) (n : nat) : st := St (m s) (cs s) (stamp s) (date s) (tr s) (firstn n (cps s) ++ skipn (S n) (cps s)).

Inductive op :=
| OInt (x n : Z) | OInterval (x nb mn mx : Z) | ORange (x nb : Z) (r : rng)
| OSparse (x nb e mn mx : Z) (ws : list Z) | ORemove (x i w : Z) (mn mx : option Z)
| ONewInterval (mn mx : Z) | ONewRange (imax nb : Z) (r : rng) | ONewInt (n : Z)
| OAlloc (ws : list Z) | OAllocSlot (v : Z) | OFill (a v : Z) | OScratch (a v : Z) | OSlot (a v : Z)
| OCFrame (fct AF optim : Z) (fdv : option Z) | ODep (x k CF : Z) | OStop (CF v : Z)
| OQueue (x mask next : Z) | ODate (d : Z)
| OCreate | OUpdate | ODelete | OCut (n : nat) | OSoftCut (n : nat).
Definition exec (o : op) (s : st) : outcome st :=
  match o with
  | OInt x n => Ret (Update_Range_From_Int s x n)
  | OInterval x nb mn mx => Ret (Update_Interval_From_Interval s x nb mn mx)
  | ORange x nb r => Ret (Update_Range_From_Range s x nb r)
  | OSparse x nb e mn mx ws => Ret (Tell_Not_Value_Sparse s x nb e mn mx ws)
  | ORemove x i w mn mx => Ret (Tell_Not_Value_Remove s x i w mn mx)
  | ONewInterval mn mx => Ret (Fd_New_Variable_Interval s mn mx)
  | ONewRange imax nb r => Ret (Fd_New_Variable_Range s imax nb r)
  | ONewInt n => Ret (Fd_New_Int_Variable s n)
  | OAlloc ws => Ret (Alloc s ws)
  | OAllocSlot v => Ret (Alloc s [v])       (* the word of a frame that is the variable of a loop *)
  | OFill a v => Ret (put s a v)            (* AF[i] = ..., fd_to_c.h:110-160 *)
  | OScratch a v => Ret (put s a v)         (* temporary vectors above CS, fd_inst.c:1226-1234 *)
  | OSlot a v => Ret (put s a v)            (* loop variable of a constraint, fd_to_c.h:718 *)
  | OCFrame fct AF optim fdv => Ret (Fd_Create_C_Frame s fct AF optim fdv)
  | ODep x k CF => Ret (Fd_Add_Dependency s x k CF)
  | OStop CF v => Ret (Fd_Stop_Constraint s CF v)
  | OQueue x mask next => Ret (put (put s (Queue_Propag_Mask x) mask) (Queue_Next x) next)
  | ODate d => Ret (St (m s) (cs s) (stamp s) d (tr s) (cps s))
  | OCreate => Ret (Create_Choice_Point s)
  | OUpdate => Update_Choice_Point s
  | ODelete => Delete_Choice_Point s
  | OCut n => Ret (Cut s n)
  | OSoftCut n => Ret (Soft_Cut s n)
  end.
End Fd.
