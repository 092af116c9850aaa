(** between/3: /repo/src/BipsPl/control_c.c:112-175, control.pl:79-84; and the global counters:
    /repo/src/BipsPl/g_var_inl_c.c:1313-1414. *)
Require Import ZArith List Bool.
Require Import Verif.Word_Model.
Import ListNotations.
Open Scope Z_scope.

(** A dereferenced word: a variable, an integer (the tagged word), another term.  Conditional trailing is C12: every binding is trailed here. *)
Inductive wd := WVar (x : nat) | WInt (w : Z) | WOther.
(** a choice point of between/3: A(0), A(1), A(2) and the height of the trail; a choice point of something else *)
Inductive frame := FBetween (l u : Z) (x : nat) (tr : nat) | FOther (tr : nat).
Record st := St { val : nat -> option wd; tr : list nat; stk : list frame }.
Definition upd (v : nat -> option wd) (x : nat) (w : option wd) : nat -> option wd := fun y => if Nat.eqb y x then w else v y.
(** Bind_UV, wam_inst.h:456 *)
Definition Bind_UV (s : st) (x : nat) (w : wd) : st := St (upd (val s) x (Some w)) (x :: tr s) (stk s).
(** Pl_Untrail, wam_inst.c:1724-1759 (TUV entries); [n] entries are undone *)
Fixpoint untrail (n : nat) (t : list nat) (v : nat -> option wd) : list nat * (nat -> option wd) :=
  match n, t with S n, x :: t => untrail n t (upd v x None) | _, _ => (t, v) end.
Definition Untrail_To (s : st) (m : nat) : st := let '(t, v) := untrail (length (tr s) - m) (tr s) (val s) in St v t (stk s).
Definition set_stk (s : st) (k : list frame) : st := St (val s) (tr s) k.

Inductive answer := Yes (s : st) | No | Err.
(** Pl_Rd_Integer_Check, c_supp.c:218-230 *)
Definition Rd_Integer_Check (w : wd) : option Z := match w with WInt w => Some (UnTag_INT_ w) | _ => None end.
(** Pl_Get_Integer, wam_inst.c:246-277, on a variable *)
Definition Get_Integer (s : st) (n : Z) (x : nat) : st := match val s x with None => Bind_UV s x (WInt (Tag_INT_ n)) | Some _ => s end.
(** control_c.c:112-141 *)
Definition Between_3 (s : st) (l_word u_word i_word : wd) : answer :=
  match Rd_Integer_Check l_word, Rd_Integer_Check u_word with
  | Some l, Some u =>
    match i_word with
    | WVar x =>
      if u <? l then No
      else
        let s := if l <? u then set_stk s (FBetween (s64 (l + 1)) u x (length (tr s)) :: stk s) else s in
        Yes (Get_Integer s l x)
    | _ => match Rd_Integer_Check i_word with Some i => if (l <=? i) && (i <=? u) then Yes s else No | None => Err end
    end
  | _, _ => Err
  end.
(** control_c.c:150-175: the newest choice point is one of between/3 *)
Definition Between_Alt_0 (s : st) : option st :=
  match stk s with
  | FBetween l u x m :: k =>
    let s := Untrail_To s m in
    let s := if l =? u then set_stk s k else set_stk s (FBetween (s64 (l + 1)) u x m :: k) in
    Some (Get_Integer s l x)
  | _ => None
  end.
(** what else a program does *)
Inductive op := OBind (x : nat) (w : wd) | OPush | ORetry | ODelete | OCut (n : nat) | OBetween (l u i : wd) | OAlt.
Definition exec (o : op) (s : st) : option st :=
  match o with
  | OBind x w => match val s x with None => Some (Bind_UV s x w) | Some _ => None end
  | OPush => Some (set_stk s (FOther (length (tr s)) :: stk s))
  | ORetry => match stk s with FOther m :: _ => Some (Untrail_To s m) | _ => None end
  | ODelete => match stk s with FOther m :: k => Some (set_stk (Untrail_To s m) k) | _ => None end
  | OCut n => Some (set_stk s (skipn n (stk s)))
  | OBetween l u i => match Between_3 s l u i with Yes s => Some s | _ => None end
  | OAlt => Between_Alt_0 s
  end.

(** ** Counters: the word of a global variable that holds an integer *)
(** g_var_inl_c.c:1313-1340, after the two checks; [old], [new]: the integers to unify with, if any *)
Definition G_Inc_Dec (w : Z) (inc : Z) (old new : option Z) : bool * Z :=
  let o := UnTag_INT_ w in
  let n := s64 (o + inc) in
  if match old with Some x => negb (x =? o) | None => false end then (false, w)
  else let w := Tag_INT_ n in (match new with Some x => x =? n | None => true end, w).
(** g_var_inl_c.c:1349-1414 *)
Definition mask (bit : Z) : Z := u64 (Z.shiftl 1 (Z.rem bit VALUE_SIZE + 3)).
Definition G_Set_Bit (w bit : Z) : Z := Z.lor w (mask bit).
Definition G_Reset_Bit (w bit : Z) : Z := Z.land w (W64 - 1 - mask bit).
Definition G_Test_Set_Bit (w bit : Z) : bool := negb (Z.land w (mask bit) =? 0).
Definition G_Test_Reset_Bit (w bit : Z) : bool := Z.land w (mask bit) =? 0.
