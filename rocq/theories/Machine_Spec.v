(** Bookkeeping around the machine of Machine_Model.v, used to say which operations a
    compiled program may perform and what backtracking must restore.  The machine
    itself never reads it. *)
Require Import ZArith List Bool.
Require Import Verif.Heap_Model Verif.Machine_Model.
Import ListNotations.
Open Scope Z_scope.

(** what a word of the stacks is used for *)
Inductive kind := Data          (* a variable or part of a term *)
  | Ctl                         (* control word, never changed *)
  | Mut.                        (* ALTB and BB of a choice point *)

Record env := Env { e_adr : Z; e_n : Z; e_cp : Z; e_prev : Z }.

Section Spec.
Variable X : Type.
Variable call : Z -> list Z -> X -> X.
Variable G0 LSSA : Z.
Notation mstate := (mstate X).
Notation op := (op X).

(** A choice point: the address of its frame, its arity, the current alternative and
    a copy of everything at the time it was created. *)
Record cp := Cp {
  c_id : nat; c_p : Z; c_ar : nat; c_alt : Z;
  c_mem : rmem; c_x : X; c_kd : Z -> option kind; c_envs : list env;
  c_H : Z; c_E : Z; c_CP : Z; c_CS : Z; c_tr : list Z; c_A : Z -> Z
}.

Record ghost := Gh { kd : Z -> option kind; envs : list env; cps : list cp; nxt : nat }.

Definition top_b (cs : list cp) : Z := match cs with [] => LSSA | c :: _ => c_p c end.

Definition kset (k : Z -> option kind) (a : Z) (v : kind) : Z -> option kind :=
  fun b => if b =? a then Some v else k b.
(** words of the local stack from [lt] on are free *)
Definition ktrunc (lt : Z) (k : Z -> option kind) : Z -> option kind :=
  fun a => if (LSSA <=? a) && (lt <=? a) then None else k a.
Definition ltop (e b : Z) : Z := if e <=? b then b else e.

Definition frame_kd (k : Z -> option kind) (p : Z) (ar : nat) : Z -> option kind :=
  fun a => if (p - 7 - Z.of_nat ar <=? a) && (a <? p)
           then Some (if (a =? p - 1) || (a =? p - 4) then Mut else Ctl) else k a.

(** the choice points from the one at [b] on *)
Fixpoint cps_from (b : Z) (cs : list cp) : list cp :=
  match cs with [] => [] | c :: cs' => if c_p c =? b then cs else cps_from b cs' end.
Fixpoint cps_without (b : Z) (cs : list cp) : list cp :=
  match cs with [] => [] | c :: cs' => if c_p c =? b then cs' else c :: cps_without b cs' end.

Definition set_alt (c : cp) (alt : Z) : cp :=
  Cp (c_id c) (c_p c) (c_ar c) alt (c_mem c) (c_x c) (c_kd c) (c_envs c)
     (c_H c) (c_E c) (c_CP c) (c_CS c) (c_tr c) (c_A c).

(** the bookkeeping of an operation from [s] to [s'] *)
Definition gupd (g : ghost) (s : mstate) (o : op) (s' : mstate) : ghost :=
  match o with
  | OPush _ _ => Gh (kset (kd g) (H X s) Data) (envs g) (cps g) (nxt g)
  | OGlobalize _ _ => Gh (kset (kd g) (H X s) Data) (envs g) (cps g) (nxt g)
  | OAllocate _ n =>
    Gh (kset (kset (kd g) (E X s' - 1) Ctl) (E X s' - 2) Ctl)
       (Env (E X s') (Z.of_nat n) (CP X s) (E X s) :: envs g) (cps g) (nxt g)
  | ODeallocate _ => Gh (ktrunc (ltop (E X s') (B X s')) (kd g)) (tl (envs g)) (cps g) (nxt g)
  | OInitY _ y _ => Gh (kset (kd g) (E X s - 3 - y) Data) (envs g) (cps g) (nxt g)
  | OCreate _ alt ar =>
    let k := frame_kd (kd g) (B X s') ar in
    Gh k (envs g)
       (Cp (nxt g) (B X s') ar alt (mem X s') (xs X s) k (envs g)
           (H X s) (E X s) (CP X s) (CS X s) (TR X s) (A X s) :: cps g) (S (nxt g))
  | OUpdate _ alt _ =>
    match cps g with
    | c :: cs => Gh (c_kd c) (c_envs c) (set_alt c alt :: cs) (nxt g)
    | [] => g
    end
  | ODelete _ _ =>
    match cps g with
    | c :: cs => Gh (ktrunc (ltop (c_E c) (top_b cs)) (c_kd c)) (c_envs c) cs (nxt g)
    | [] => g
    end
  | OCut _ b => Gh (ktrunc (ltop (E X s) b) (kd g)) (envs g) (cps_from b (cps g)) (nxt g)
  | OSoftCut _ b =>
    Gh (ktrunc (ltop (E X s') (B X s')) (kd g)) (envs g) (cps_without b (cps g)) (nxt g)
  | _ => g
  end.

(** What compiled code respects: only initialised data words are bound or assigned,
    Bind_UV is applied to unbound variables, an environment slot is initialised once,
    the environment is deallocated by its owner, choice points are retried with their
    own arity, cuts name an existing choice point, the first choice point of a
    session is never removed, the global stack does not run into the local stack (guard
    page), and the function of a TFC entry undoes the change it is pushed for. *)
Definition legal (g : ghost) (s : mstate) (o : op) : Prop :=
  match o with
  | OPush _ _ => H X s < LSSA
  | OBind _ a _ => kd g a = Some Data /\ mem X s a = Make_Self_Ref a
  | OBindOV _ a _ => kd g a = Some Data
  | OTrailOV _ a _ => kd g a = Some Data
  | OTrailMV _ a vs => vs <> [] /\ forall i, (i < length vs)%nat -> kd g (a + Z.of_nat i) = Some Data
  | OTrailFC _ f args x => args <> [] /\ call f args x = xs X s
  | OGlobalize _ a => H X s < LSSA /\ kd g a = Some Data /\ mem X s a = Make_Self_Ref a /\ LSSA <= a
  | OAllocate _ _ => True
  | ODeallocate _ => envs g <> []
  | OInitY _ y _ => match envs g with
                    | e :: _ => 0 <= y < e_n e /\ kd g (e_adr e - 3 - y) = None
                    | [] => False
                    end
  | OSetA _ _ _ | OSetCP _ _ | OSetCS _ _ => True
  | OCreate _ _ _ => True
  | OUpdate _ _ ar => match cps g with c :: _ => ar = c_ar c | [] => False end
  | ODelete _ ar => match cps g with c :: _ :: _ => ar = c_ar c | _ => False end
  | OCut _ b => In b (map c_p (cps g))
  | OSoftCut _ b => exists c cs, rev (cps g) = c :: cs /\ c_p c < b
  end.

(** start: Pl_Reset_Prolog, /repo/src/EnginePl/engine.c:249-262, before the first
    choice point *)
Definition start (g : ghost) (s : mstate) : Prop :=
  H X s = G0 /\ E X s = LSSA /\ B X s = LSSA /\ TR X s = [] /\ g = Gh (fun _ => None) [] [] 0.

Inductive step : ghost * mstate -> ghost * mstate -> Prop :=
| step_op g s o s' : legal g s o -> exec X call LSSA s o = Ret s' -> step (g, s) (gupd g s o s', s').

Inductive steps : ghost * mstate -> ghost * mstate -> Prop :=
| steps_refl gs : steps gs gs
| steps_step gs1 gs2 gs3 : steps gs1 gs2 -> step gs2 gs3 -> steps gs1 gs3.

Definition reach (g : ghost) (s : mstate) : Prop := exists g0 s0, start g0 s0 /\ steps (g0, s0) (g, s).

(** the same choice point, possibly with another alternative to try *)
Definition same_choice (c c' : cp) : Prop := c' = set_alt c (c_alt c').
End Spec.
