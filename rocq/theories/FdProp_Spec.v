(** What posting constraints must do. *)
Require Import ZArith List Bool.
Require Import Verif.Heap_Model Verif.FdRange_Model Verif.FdRange_Spec Verif.FdTell_Model Verif.FdTell_Spec Verif.FdProp_Model.
Import ListNotations.
Open Scope Z_scope.

Notation dom x := (rin (frange x)).
(** what a tell says about the value of the variable *)
Definition in_tell (k : tellk) (n : Z) : Prop :=
  match k with TInterval lo hi => lo <= n <= hi | TValue m => n = m | TNot m => n <> m | TRng r => rin r n end.
Section S.
Variable sz : nat.
(** A variable whose domain is complete and in 0..fd_max_integer. *)
Definition cvar (x : fdv) : Prop := fdv_ok sz x /\ extra_cstr (frange x) = false /\ 0 <= rmin (frange x) /\ rmax (frange x) <= IMAX.
Definition cvars (s : nat -> fdv) : Prop := forall v, cvar (s v).
(** an assignment of the variables is within the domains *)
Definition within (s : nat -> fdv) (f : nat -> Z) : Prop := forall v, dom (s v) (f v).
Definition smaller (s s0 : nat -> fdv) : Prop := forall v n, dom (s v) n -> dom (s0 v) n.
(** A tell whose arguments are ints, such that the domain stays complete: values are removed from the
    inside of a domain only if it fits in a vector. *)
Definition fine (x : fdv) (k : tellk) : Prop :=
  match k with
  | TInterval lo hi => INT_MIN < lo <= INT_MAX /\ is_int hi
  | TValue n => is_int n
  | TNot n => is_int n /\ (tagv x = None -> rmax (frange x) <= vmax sz)
  | TRng r => rok sz r /\ extra_cstr r = false
  end.
(** A block: the variable it restricts, and its frame. *)
Definition cstr := (list aval * block)%type.
Definition target (c : cstr) : option nat := match nth_error (fst c) (btarget (snd c)) with Some (AV v) => Some v | _ => None end.
Definition tells (s : nat -> fdv) (c : cstr) : outcome (option tellk) := beval s (fst c) (brange (snd c)).
(** Running the block does not change any domain. *)
Definition stable (s : nat -> fdv) (c : cstr) : Prop :=
  exists v o, target c = Some v /\ tells s c = Ret o /\ match o with None => True | Some k => forall n, dom (s v) n -> in_tell k n end.
(** The block can be run, now and with all smaller domains, without undefined behaviour. *)
Definition safe (s0 : nat -> fdv) (c : cstr) : Prop :=
  exists v, target c = Some v /\ forall s, cvars s -> smaller s s0 -> exists o, tells s c = Ret o /\ match o with None => True | Some k => fine (s v) k end.
(** What the block depends on are variables. *)
Definition framed (c : cstr) : Prop := forall i ch, In (i, ch) (block_deps (length (fst c)) (snd c)) -> exists v, nth_error (fst c) i = Some (AV v).
(** The block never removes the value of an assignment that satisfies [P]. *)
Definition sound (P : (nat -> Z) -> Prop) (c : cstr) : Prop :=
  forall s f v k, cvars s -> within s f -> P f -> target c = Some v -> tells s c = Ret (Some k) -> in_tell k (f v).

(** ** Sequences of posted constraints *)
(** a posted constraint: its frame and its blocks *)
Definition group := (list aval * list block)%type.
Definition posted (G : list group) (c : cstr) : Prop := exists l, In (fst c, l) G /\ In (snd c) l.
(** The blocks of a constraint whose target is already bound may be left out (optimization #2): it is enough
    that such a block did not change its variable at some moment since [s0]. *)
Definition skipped_ok (s0 s : nat -> fdv) (c : cstr) : Prop :=
  (exists v, target c = Some v /\ is_ground (s0 v) = true) /\ exists s1, cvars s1 /\ smaller s1 s0 /\ smaller s s1 /\ stable s1 c.
Definition closed (s0 : nat -> fdv) (g : group) : Prop := forall s, cvars s0 -> cvars s -> smaller s s0 ->
  (forall b, In b (snd g) -> stable s (fst g, b) \/ skipped_ok s0 s (fst g, b)) -> forall b, In b (snd g) -> stable s (fst g, b).
(** The state between two constraints: the queue is empty, the chains of each unbound variable hold the blocks that
    depend on it, and every posted block is at its fixpoint. *)
Record ready (G : list group) (s : st) : Prop := {
  r_q : forall v, qmask (vars s v) = 0;
  r_cm : forall v, 0 <= cmask (vars s v) < 32;
  r_ch : forall v c, (c < 5)%nat -> Z.testbit (cmask (vars s v)) (Z.of_nat c) = true <-> chs (vars s v) c <> [];
  r_id : forall v c id, In id (chs (vars s v) c) -> (id < length (cfs s))%nat;
  r_cv : cvars (store s);
  r_dp : forall id c i ch v, nth_error (cfs s) id = Some c -> In (i, ch) (block_deps (length (af c)) (cfct c)) -> nth_error (af c) i = Some (AV v) ->
           In id (chs (vars s v) ch) \/ is_ground (store s v) = true;
  r_op : forall id c, nth_error (cfs s) id = Some c -> optim c = None \/ optim c = target (af c, cfct c);
  r_da : forall v, is_ground (store s v) = false -> date (vars s v) = DATE_ALWAYS;
  r_cf : forall id c, nth_error (cfs s) id = Some c -> posted G (af c, cfct c);
  r_G : forall c, posted G c -> block_deps (length (fst c)) (snd c) = [] \/ exists id cf, nth_error (cfs s) id = Some cf /\ (af cf, cfct cf) = c;
  r_st : forall c, posted G c -> stable (store s) c }.
(** The blocks of the constraints can be run, say no more than [P], and restrict variables below [nv]. *)
Definition good (nv : nat) (s0 : nat -> fdv) (P : (nat -> Z) -> Prop) (c : cstr) : Prop :=
  safe s0 c /\ sound P c /\ framed c /\ exists v, target c = Some v /\ (v < nv)%nat.
(** Posting: *)
Definition posts (s : st) (P : (nat -> Z) -> Prop) (G : list group) (o : outcome (bool * st)) : Prop :=
  exists ok s', o = Ret (ok, s') /\ (forall v, qmask (vars s' v) = 0) /\
  (* failure: no solution *)
  (ok = false -> forall g, within (store s) g -> P g -> False) /\
  (* success: no solution is lost, and every block is at its fixpoint or has a target that was bound *)
  (ok = true -> cvars (store s') /\ smaller (store s') (store s) /\ (forall g, within (store s) g -> P g -> within (store s') g) /\
    (forall c, posted G c -> stable (store s') c \/ skipped_ok (store s) (store s') c) /\
    ((forall g, In g G -> closed (store s) g) -> ready G s')).
End S.
