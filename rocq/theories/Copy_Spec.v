(** Renaming, variables and size of a tree. *)
Require Import ZArith List Bool.
Require Import Verif.Term_Model Verif.Heap_Model.
Import ListNotations.
Open Scope Z_scope.

(** the tree with its variables renamed *)
Fixpoint ren (f : addr -> addr) (t : term) : term :=
  match t with
  | TVar a => TVar (f a)
  | TCmp g ts => TCmp g (map (ren f) ts)
  | t => t
  end.

(** occurrences of variables, from left to right; with the FD variables if [fdv] *)
Fixpoint occs (fdv : bool) (t : term) : list addr :=
  match t with
  | TVar a => [a]
  | TFdv a => if fdv then [a] else []
  | TCmp _ ts => flat_map (occs fdv) ts
  | _ => []
  end.

(** no FD variable in the term *)
Fixpoint nofd (t : term) : bool :=
  match t with TFdv _ => false | TCmp _ ts => forallb nofd ts | _ => true end.

(** number of words of a copy: its root word included *)
Fixpoint words_of (t : term) : Z :=
  match t with
  | TFlt _ => 2
  | TCmp f ts =>
    (if (f =? ATOM_DOT) && Nat.eqb (length ts) 2 then 1 else 2) + fold_right Z.add 0 (map words_of ts)
  | _ => 1
  end.

(** the list without repetitions, in order of first occurrence: [first_occ l r] *)
Inductive first_occ : list addr -> list addr -> Prop :=
| fo_nil : first_occ [] []
| fo_old l r a : first_occ l r -> In a r -> first_occ (l ++ [a]) r
| fo_new l r a : first_occ l r -> ~ In a r -> first_occ (l ++ [a]) (r ++ [a]).

(** the part of the memory between two addresses *)
Definition region (lo hi : addr) (m : mem) : mem :=
  fun x => if (lo <=? x) && (x <? hi) then m x else None.

(** more than [n] different variables *)
Definition more_vars (n : nat) (t : term) : Prop :=
  exists l, NoDup l /\ incl l (occs false t) /\ (n < length l)%nat.

(** the same cell, all addresses moved by [d] *)
Definition shiftw (d : Z) (w : word) : word :=
  match w with
  | REF a => REF (a + d) | LST a => LST (a + d) | STC a => STC (a + d)
  | FLT a => FLT (a + d) | FDV a => FDV (a + d) | w => w
  end.
Definition shift (d : Z) (c : cell) : cell :=
  match c with Word w => Word (shiftw d w) | c => c end.

(** a Prolog list *)
Definition list_term (nil : Z) (us : list term) : term :=
  fold_right (fun u r => TCmp ATOM_DOT [u; r]) (TAtm nil) us.
(** the term an address of a variable stands for *)
Definition is_var (m : mem) (a : addr) (u : term) : Prop :=
  (u = TVar a /\ m a = Some (Word (REF a))) \/ (u = TFdv a /\ m a = Some (Word (FDV a))).

(** [m'] is [m0] with a copy of the tree [t] in the cells from [base] on: nothing else
    has changed; the copy uses no cell of the rest of the memory, all the cells of the
    region are written; its variables are new cells, different variables have different copies *)
Record copied (m0 m' : mem) (base : addr) (t : term) (ro : addr -> addr) (w' : word) : Prop := {
  cpd_frame : forall x, ~ (base <= x < base + words_of t) -> m' x = m0 x;
  cpd_root : m' base = Some (Word w');
  cpd_den : den (region base (base + words_of t) m') w' (ren ro t);
  cpd_def : forall x, base <= x < base + words_of t -> m' x <> None;
  cpd_new : forall a, In a (occs false t) -> base <= ro a < base + words_of t;
  cpd_inj : forall a b, In a (occs false t) -> In b (occs false t) -> ro a = ro b -> a = b
}.
