(** What a word means, finite or infinite (cyclic) terms alike.

    A (possibly infinite) tree is given by its nodes: a relation between paths
    (argument numbers from the root, counted from 0) and labels.  A valuation gives
    a tree to each variable.  [lab m nu w p l]: in memory [m], with the unbound
    variables standing for the trees [nu], the tree of the word [w] has a node
    labelled [l] at path [p]. *)
Require Import ZArith List Floats.SpecFloat.
Require Import Verif.Term_Model Verif.Term_Proofs Verif.Heap_Model Verif.Heap_Proofs Verif.Unify_Model.
Import ListNotations.
Open Scope Z_scope.

Inductive label : Type :=
| LFun (f : Z) (n : nat)
| LInt (n : Z)
| LAtm (i : Z)
| LFlt (d : spec_float)       (* 0.0 and -0.0 unify: sign of zero erased *)
| LFdv (a : addr)
| LVar (a : addr).            (* a free variable; only used by valuations *)

Definition path := list nat.
Definition tree := path -> label -> Prop.
Definition valuation := addr -> tree.

Inductive lab (m : mem) (nu : valuation) : word -> tree :=
| lab_var a p l : m a = Some (Word (REF a)) -> nu a p l -> lab m nu (REF a) p l
| lab_ref a w p l : m a = Some (Word w) -> w <> REF a -> lab m nu w p l -> lab m nu (REF a) p l
| lab_int n : lab m nu (INT n) [] (LInt n)
| lab_atm i : lab m nu (ATM i) [] (LAtm i)
| lab_flt a d : m a = Some (Dbl d) -> lab m nu (FLT a) [] (LFlt (norm_flt d))
| lab_fdv a : lab m nu (FDV a) [] (LFdv a)
| lab_lst a : lab m nu (LST a) [] (LFun ATOM_DOT 2)
| lab_lst_arg a i w p l : (i < 2)%nat -> m (a + Z.of_nat i) = Some (Word w) ->
    lab m nu w p l -> lab m nu (LST a) (i :: p) l
| lab_stc a f n : m a = Some (Func f n) -> lab m nu (STC a) [] (LFun f n)
| lab_stc_arg a f n i w p l : m a = Some (Func f n) -> (i < n)%nat ->
    m (a + 1 + Z.of_nat i) = Some (Word w) -> lab m nu w p l -> lab m nu (STC a) (i :: p) l.

(** two words stand for the same tree *)
Definition same_tree (t1 t2 : tree) : Prop := forall p l, t1 p l <-> t2 p l.
Definition same (m : mem) (nu : valuation) (u v : word) : Prop :=
  same_tree (lab m nu u) (lab m nu v).

(** only unbound variables were changed *)
Definition only_vars_bound (m m' : mem) : Prop :=
  forall a, m' a = m a \/
    (m a = Some (Word (REF a)) /\ exists w, m' a = Some (Word w)).

(** ** Well-formed memories

    [L] is the start of the local stack.  Every pointer leads to a cell of the right
    kind; structures, lists, floats and FD variables live in the global stack;
    a structure has at least one argument and is not '.'/2; a reference leads to the
    global stack (in any direction: copy_term makes upward ones), or to a lower address,
    or to itself (unbound variable); every chain of references ends; floats are not NaN
    (arithmetic never yields one). *)
Definition words_at (m : mem) (a : addr) (n : nat) : Prop :=
  forall i, (i < n)%nat -> exists w, m (a + Z.of_nat i) = Some (Word w).

Definition wf_word (L : addr) (m : mem) (w : word) : Prop :=
  match w with
  | REF b => exists w', m b = Some (Word w')
  | LST b => b + 1 < L /\ words_at m b 2
  | STC b => exists f n, m b = Some (Func f n) /\ (1 <= n)%nat /\ ~ (f = ATOM_DOT /\ n = 2%nat) /\
      b + Z.of_nat n < L /\ words_at m (b + 1) n
  | FLT b => exists d, m b = Some (Dbl d) /\ not_nan d /\ b < L
  | FDV b => m b = Some (Word (FDV b)) /\ b < L
  | _ => True
  end.

Record wf (L : addr) (m : mem) : Prop := {
  wf_pos : forall a c, m a = Some c -> 0 <= a;
  wf_cell : forall a w, m a = Some (Word w) -> wf_word L m w;
  wf_ref : forall a b, m a = Some (Word (REF b)) -> b <= a \/ b < L;
  wf_drf : forall a w, m a = Some (Word w) -> exists w', derefs m w w'
}.

(** ** Finite terms and substitutions *)
Fixpoint inst (sg : addr -> term) (t : term) : term :=
  match t with
  | TVar a => sg a
  | TCmp f args => TCmp f (map (inst sg) args)
  | t => t
  end.

(** every word stands for a finite term *)
Definition acyclic (L : addr) (m : mem) : Prop :=
  forall w, wf_word L m w -> exists t, den m w t.

(** there are finitely many unbound variables *)
Definition finite_vars (m : mem) : Prop :=
  exists D, forall a, m a = Some (Word (REF a)) -> In a D.

(** no FD variable anywhere *)
Definition no_fd (m : mem) : Prop := forall a b, m a <> Some (Word (FDV b)).

(** a tree with a root and finitely many levels *)
Definition finite_tree (t : tree) : Prop :=
  (exists l, t [] l) /\ exists N, forall p l, t p l -> (length p <= N)%nat.
