(** Bookkeeping around FdTrail_Model: what the words of the constraint stack are used for, and a copy of the state at each choice point.
    The model never reads it. *)
Require Import ZArith List Bool.
Require Import Verif.Heap_Model Verif.FdTrail_Model.
Import ListNotations.
Open Scope Z_scope.

Inductive kind := KVar | KInt | KVec | KOther (n : Z) | KSlot.
Section Spec.
Variable vs : nat.
Definition size (k : kind) : Z := match k with KVar => 17 | KInt => 9 | KVec => Z.of_nat vs | KOther n => n | KSlot => 1 end.
(** a choice point: its number, the state and the objects when it was created *)
Record snap := Snap { n_id : nat; n_s : st; n_objs : list (Z * kind) }.
Record ghost := Gh { objs : list (Z * kind); snaps : list snap; nxt : nat }.

(** the words backtracking need not restore: the queue (empty between two constraints), Nb_Cstr (a hint for labeling), loop variables *)
Definition vol (os : list (Z * kind)) (a : Z) : Prop :=
  exists x k, In (x, k) os /\ (((k = KVar \/ k = KInt) /\ (a = x + 2 \/ a = x + 3)) \/ (k = KVar /\ a = x + 10) \/ (k = KSlot /\ a = x)).

Definition legal (g : ghost) (s : st) (o : op) : Prop :=
  match o with
  | OInt x _ | OInterval x _ _ _ => In (x, KVar) (objs g)
  | ORange x _ r => In (x, KVar) (objs g) /\ match r_vec r with Some ws => length ws = vs | None => True end
  | OSparse x _ _ _ _ ws => In (x, KVar) (objs g) /\ length ws = vs
  | ORemove x i _ _ _ => In (x, KVar) (objs g) /\ 0 <= i < Z.of_nat vs
  | ONewRange _ _ r => match r_vec r with Some ws => length ws = vs | None => True end
  | OFill a _ => (exists b n, In (b, KOther n) (objs g) /\ b <= a < b + n) /\ match cps s with c :: _ => c_cs c <= a | [] => True end
  | OScratch a _ => cs s <= a
  | OSlot a _ => In (a, KSlot) (objs g)
  | OCFrame _ _ _ fdv => match fdv with Some x => In (x, KVar) (objs g) \/ (In (x, KInt) (objs g) /\ Fd_Variable_Is_Ground s x = true /\ x + 9 <= cs s) | None => True end
  | ODep x k _ => (In (x, KVar) (objs g) /\ 0 <= k <= 4) \/ Fd_Variable_Is_Ground s x = true
  | OStop CF _ => In (CF, KOther 3) (objs g)
  | OQueue x _ _ => In (x, KVar) (objs g) \/ In (x, KInt) (objs g)
  | OUpdate | ODelete => cps s <> []
  | _ => True
  end.
Definition gupd (g : ghost) (s : st) (o : op) (s' : st) : ghost :=
  match o with
  | ORange _ _ _ | OSparse _ _ _ _ _ _ => if cs s' =? cs s then g else Gh ((cs s, KVec) :: objs g) (snaps g) (nxt g)
  | ONewInterval _ _ => Gh ((cs s, KVar) :: objs g) (snaps g) (nxt g)
  | ONewRange _ _ r =>
    Gh (match r_vec r with Some _ => (cs s + 17, KVec) :: (cs s, KVar) :: objs g | None => (cs s, KVar) :: objs g end) (snaps g) (nxt g)
  | ONewInt _ => Gh ((cs s, KInt) :: objs g) (snaps g) (nxt g)
  | OAlloc ws => Gh ((cs s, KOther (Z.of_nat (length ws))) :: objs g) (snaps g) (nxt g)
  | OAllocSlot _ => Gh ((cs s, KSlot) :: objs g) (snaps g) (nxt g)
  | OCFrame _ _ _ _ => Gh ((cs s, KOther 3) :: objs g) (snaps g) (nxt g)
  | ODep _ _ _ => if cs s' =? cs s then g else Gh ((cs s, KOther 2) :: objs g) (snaps g) (nxt g)
  | OCreate => Gh (objs g) (Snap (nxt g) s (objs g) :: snaps g) (S (nxt g))
  | OUpdate => match snaps g with c :: _ => Gh (n_objs c) (snaps g) (nxt g) | [] => g end
  | ODelete => match snaps g with c :: l => Gh (n_objs c) l (nxt g) | [] => g end
  | OCut n => Gh (objs g) (skipn n (snaps g)) (nxt g)
  | OSoftCut n => Gh (objs g) (firstn n (snaps g) ++ skipn (S n) (snaps g)) (nxt g)
  | _ => g
  end.
Definition start (g : ghost) (s : st) : Prop := 0 < cs s /\ tr s = [] /\ cps s = [] /\ g = Gh [] [] 0.
Inductive steps : ghost * st -> ghost * st -> Prop :=
| steps_refl gs : steps gs gs
| steps_step gs g s o s' : steps gs (g, s) -> legal g s o -> exec vs o s = Ret s' -> steps gs (gupd g s o s', s').
Definition reach (g : ghost) (s : st) : Prop := exists g0 s0, start g0 s0 /\ steps (g0, s0) (g, s).

(** the value, the domain (bounds, mark, number of elements, words of the vector) and the constraints of a variable *)
Definition view (mm : wmem) (x : Z) : list Z * list Z * list Z :=
  ([mm x; mm (x + 1)] ++ rds mm (x + 4) 5, if mm (Vec x) =? 0 then [] else rds mm (mm (Vec x)) vs, mm (x + 9) :: rds mm (x + 11) 6).
End Spec.
