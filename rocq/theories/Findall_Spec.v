(** What findall/3 should return. *)
Require Import ZArith List Bool.
Require Import Verif.Term_Model Verif.Heap_Model Verif.Unify_Spec Verif.Copy_Spec Verif.Findall_Model Verif.KeyVar_Spec.
Import ListNotations.
Open Scope Z_scope.

(** the terms collected by each of the running findall, innermost first; the last
    list is of no findall *)
Definition collected := list (list term).

Definition ideal_step (l : collected) (e : event) : collected :=
  match e, l with
  | EOpen, l => [] :: l
  | ESol _ _ t, c :: l => (c ++ [t]) :: l
  | EClose _ _, _ :: l | EBag _ _, _ :: l => l
  | EThrow n, l => skipn n l
  | _, l => l
  end.
Definition ideal (es : list event) : collected := fold_left ideal_step es [[]].

(** what happens instead: what was collected by the calls left by an exception goes to the
    one that goes on *)
Definition merge (l : collected) : collected :=
  match l with c :: d :: l => (d ++ c) :: l | l => l end.
Definition real_step (l : collected) (e : event) : collected :=
  match e with EThrow n => Nat.iter n merge l | e => ideal_step l e end.
Definition real (es : list event) : collected := fold_left real_step es [[]].

(** exceptions only leave findall that have not collected anything yet *)
Fixpoint clean (l : collected) (es : list event) : Prop :=
  match es with
  | [] => True
  | e :: es =>
    match e with EThrow n => Forall (fun c => c = []) (firstn n l) | _ => True end /\
    clean (ideal_step l e) es
  end.

(** a Prolog list ended by a term *)
Definition list_tail (us : list term) (t : term) : term :=
  fold_right (fun u r => TCmp ATOM_DOT [u; r]) t us.

(** a copy: the variables are renamed, different ones differently *)
Definition variant (t u : term) : Prop :=
  exists ro, u = ren ro t /\
  forall a b, In a (occs false t) -> In b (occs false t) -> ro a = ro b -> a = b.
Definition no_common_var (t u : term) : Prop :=
  forall a, In a (occs false t) -> ~ In a (occs false u).

Definition sz (ts : list term) : Z := fold_right (fun t r => words_of t + r) 0 ts.

(** words for a list of n solutions: two for each element of the list, and the copies *)
Definition need (ts : list term) : Z := if Nat.eqb (length ts) 0 then 0 else 2 * Z.of_nat (length ts) + sz ts.

(** the memory without the blocks given by Malloc: what Prolog terms are made of *)
Definition in_block (sol : list onesol) (x : addr) : bool :=
  existsb (fun s => (s_adr s <=? x) && (x <? s_adr s + s_size s)) sol.
Definition visible (m : mem) (sol : list onesol) : mem :=
  fun x => if in_block sol x then None else m x.

(** what the rest of the system guarantees when the functions are called: a solution is a
    term without FD variable; Malloc gives free memory; nothing is used in the
    heap above H *)
Definition legal (L hend : addr) (s : fs) (e : event) : Prop :=
  match e with
  | ESol w a t => wf L (f_m s) /\ wf_word L (f_m s) w /\ den (f_m s) w t /\ nofd t = true /\
      forall x, a <= x < a + words_of t -> f_m s x = None
  | EClose tail _ | EBag tail _ => f_H s <= hend /\ (forall x, f_H s <= x < hend -> f_m s x = None) /\
      exists tt, den (visible (f_m s) (f_sol s)) tail tt
  | _ => True
  end.
(** bagof/3 stores pairs Key - Value; it must not find anything else *)
Definition bag_ok (es : list event) (e : event) : Prop :=
  match e with EBag _ _ => Forall is_pair (hd [] (real es)) | _ => True end.
Inductive exec (L hend : addr) (fd : addr -> Z) (lim : nat) : fs -> list event -> fs -> Prop :=
| ex_nil s : exec L hend fd lim s [] s
| ex_snoc s es s' e s'' : exec L hend fd lim s es s' -> legal L hend s' e -> bag_ok es e ->
    step hend fd lim s' e s'' -> exec L hend fd lim s (es ++ [e]) s''.
