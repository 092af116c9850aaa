(** Specification for C38, C39: the values of the global variables, without memory.

    A value is a word or an array; an array made by g_array_auto has a value for the elements
    which do not exist yet. *)
Require Import ZArith List Bool Arith.
Require Import Verif.Heap_Model Verif.Gvar_Model.
Import ListNotations.
Open Scope nat_scope.

Inductive av : Type := AWord (w : gword) | AArr (l : list av) (d : option av).

(** the value in memory at [L]; [None]: an access outside the blocks or to what is not
    initialized *)
Fixpoint elements (at_ : loc -> option av) (b k i : nat) : option (list av) :=
  match k with
  | O => Some []
  | S k => match at_ (b, i), elements at_ b k (S i) with Some v, Some l => Some (v :: l) | _, _ => None end
  end.
Fixpoint av_at (fuel : nat) (s : gst) (L : loc) : option av :=
  match fuel with
  | O => None
  | S fuel =>
    match cell (hp s) L with
    | Some (Elt (CLink w) _) => Some (AWord w)
    | Some (Elt (CCopy b) _) => match hp s b with Some (BTerm w) => Some (AWord w) | _ => None end
    | Some (Elt (CArr n b) _) =>
      match elements (av_at fuel s) b n 0, cell (hp s) (b, n) with
      | Some l, Some (Elt CEnd _) => Some (AArr l None)
      | Some l, Some _ => match av_at fuel s (b, n) with Some x => Some (AArr l (Some x)) | None => None end
      | _, None | None, _ => None
      end
    | _ => None
    end
  end.
(** the value of the variable [a]; 0 when it was never used *)
Definition value_of (s : gst) (a : Z) : option av :=
  match info s a with
  | Some b => av_at (S (nb s)) s (b, 0)
  | None => Some (AWord (GInt 0))
  end.

(** what g_read/2 gives *)
Fixpoint show (v : av) : gval :=
  match v with AWord w => GVal w | AArr l _ => GList (map show l) end.

(** * What is assigned *)
Fixpoint wf_src (x : gsrc) : Prop :=
  match x with
  | SConst _ | STerm _ => True
  | SArrN _ n init => (0 < n)%Z /\ wf_src init
  | SArrL _ l => l <> [] /\ (fix all (l : list gsrc) : Prop := match l with [] => True | y :: r => wf_src y /\ all r end) l
  | SBad => False
  end.
(** g_array without arguments of the right type: an error *)
Definition bad_src (x : gsrc) : Prop :=
  match x with SBad | SArrL _ [] => True | SArrN _ n _ => (n <= 0)%Z | _ => False end.
Fixpoint vsrc (x : gsrc) : av :=
  match x with
  | SConst w | STerm w => AWord w
  | SArrN op n init => AArr (repeat (vsrc init) (Z.to_nat n)) (if is_auto op then Some (vsrc init) else None)
  | SArrL op l => AArr (map vsrc l) (if is_auto op then Some (AWord (GInt 0)) else None)
  | SBad => AWord (GInt 0)
  end.
Definition src_size (x : gsrc) : nat :=
  match x with SArrN _ n _ => Z.to_nat n | SArrL _ l => length l | _ => 0 end.
Definition src_op (x : gsrc) : option array_op :=
  match x with SArrN op _ _ | SArrL op _ => Some op | _ => None end.
(** the array made when the old value is [v0] *)
Definition arr_asg (bt : bool) (op : array_op) (vs : list av) (dflt v0 : av) : av :=
  match v0 with
  | AArr l0 d0 =>
    match op with
    | G_ARRAY_EXTEND => AArr (l0 ++ skipn (length l0) vs) d0
    | G_ARRAY_AUTO => AArr vs (Some dflt)
    | G_ARRAY => AArr vs (if bt then d0 else None)
    end
  | AWord _ => AArr vs (if is_auto op then Some dflt else None)
  end.
Definition vassign (bt : bool) (x : gsrc) (v0 : av) : av :=
  match x with
  | SConst w | STerm w => AWord w
  | SArrN op n init => arr_asg bt op (repeat (vsrc init) (Z.to_nat n)) (vsrc init) v0
  | SArrL op l => arr_asg bt op (map vsrc l) (AWord (GInt 0)) v0
  | SBad => v0
  end.
(** what the code relies on: an array which extends an array, or replaces it until
    backtracking, is not smaller *)
Definition size_ok (bt : bool) (x : gsrc) (v0 : av) : Prop :=
  match v0, src_op x with
  | AArr l0 _, Some op => bt = true \/ op = G_ARRAY_EXTEND -> length l0 <= src_size x
  | _, _ => True
  end.

(** * Elements *)
Definition next_pow (i : Z) : Z := if (i =? 0)%Z then 1 else 2 ^ (Z.log2 i + 1).
(** the elements once there is one numbered [i] *)
Definition room (l : list av) (d : option av) (i : Z) : option (list av) :=
  if (i <? 0)%Z then None
  else if (i <? Z.of_nat (length l))%Z then Some l
  else match d with
       | Some x => if (2 ^ 20 <? i)%Z then None else Some (l ++ repeat x (Z.to_nat (next_pow i) - length l))
       | None => None
       end.
(** the value once the element a(p) exists, and the place of the element; [None]: an error *)
Fixpoint vwalk (p : list Z) (v : av) : av * option (list nat) :=
  match p with
  | [] => (v, Some [])
  | i :: p =>
    match v with
    | AWord _ => (v, None)
    | AArr l d =>
      match room l d i with
      | None => (v, None)
      | Some l' =>
        match nth_error l' (Z.to_nat i) with
        | None => (v, None)
        | Some w => let (w', q) := vwalk p w in (AArr (set_nth l' (Z.to_nat i) w') d, option_map (cons (Z.to_nat i)) q)
        end
      end
    end
  end.
Fixpoint vget (q : list nat) (v : av) : option av :=
  match q, v with
  | [], _ => Some v
  | i :: q, AArr l _ => match nth_error l i with Some w => vget q w | None => None end
  | _ :: _, AWord _ => None
  end.
Fixpoint vset (q : list nat) (x : av) (v : av) : av :=
  match q, v with
  | [], _ => x
  | i :: q, AArr l d => match nth_error l i with Some w => AArr (set_nth l i (vset q x w)) d | None => v end
  | _ :: _, AWord _ => v
  end.
(** the value of the variable after an assignment of [x] to a(p) *)
Definition vresult (bt : bool) (p : list Z) (x : gsrc) (v : av) : av :=
  let (v', q) := vwalk p v in
  match q with
  | Some q => match vget q v' with Some w => vset q (vassign bt x w) v' | None => v' end
  | None => v'
  end.

(** * Executions *)
(** a(p), with integers as indexes *)
Fixpoint idx (p : list Z) : gidxs := match p with [] => INil | i :: p => IInt i (idx p) end.
Definition elem (a : Z) (p : list Z) : gref := GRef a (idx p).
(** the condition on sizes for an assignment to a(p) *)
Definition fits (bt : bool) (s : gst) (a : Z) (p : list Z) (x : gsrc) : Prop :=
  forall v q w, value_of s a = Some v -> snd (vwalk p v) = Some q -> vget q (fst (vwalk p v)) = Some w -> size_ok bt x w.
Inductive ok_op (s : gst) : gop -> Prop :=
| ok_assign : forall a p x, (wf_src x /\ fits false s a p x) \/ bad_src x -> ok_op s (Oassign (elem a p) x)
| ok_assignb : forall a p x, (wf_src x /\ fits true s a p x) \/ bad_src x -> ok_op s (Oassignb (elem a p) x)
| ok_link : forall a p x, (wf_src x /\ fits true s a p x) \/ bad_src x -> ok_op s (Olink (elem a p) x)
| ok_read : forall a p, ok_op s (Oread (elem a p))
| ok_back : forall n, ok_op s (Oback n).
Inductive history : gst -> Prop :=
| h_start : history start
| h_step : forall s o s', history s -> ok_op s o -> exec o s = Ret s' -> history s'.

(** the variable of an operation *)
Definition op_var (o : gop) : option Z :=
  match o with
  | Oassign (GRef a _) _ | Oassignb (GRef a _) _ | Olink (GRef a _) _ | Oread (GRef a _) => Some a
  | Oback _ => None
  end.
(** the element of the operation exists already, or there is an error *)
Definition quiet (g : gref) (s : gst) : Prop := exists r, Get_Target_From_Gvar g s = Ret (r, s).
(** operations on [a] which are undone by backtracking *)
Definition undone (a : Z) (s : gst) (o : gop) : Prop :=
  match o with
  | Oassign (GRef a' _) _ => a' <> a
  | Oassignb (GRef a' l) _ | Olink (GRef a' l) _ | Oread (GRef a' l) => a' = a -> quiet (GRef a' l) s
  | Oback _ => True
  end.
(** from [s] to [s'] without going back before the trail had [n] records *)
Inductive between (a : Z) (n : nat) : gst -> gst -> Prop :=
| b_refl : forall s, between a n s s
| b_step : forall s s1 o s2, between a n s s1 -> ok_op s1 o -> undone a s1 o ->
    (forall k, o = Oback k -> n <= k) -> exec o s1 = Ret s2 -> between a n s s2.
(** from [s] to [s'] without operations on [a] *)
Inductive without (a : Z) : gst -> gst -> Prop :=
| w_refl : forall s, without a s s
| w_step : forall s s1 o s2, without a s s1 -> ok_op s1 o -> op_var o <> Some a -> exec o s1 = Ret s2 -> without a s s2.
