(** What it means that a term is read back (C57). *)
Require Import ZArith List Bool.
Require Import Verif.Lex_Model Verif.Write_Model Verif.Lex_Spec Verif.Parse_Model.
Import ListNotations.
Open Scope Z_scope.

(** the terms: names are C strings that fit in the token buffer, integers have 61 bits,
    variables have an offset that is a C int; the functor '.'/2 makes lists *)
Inductive term_ok : wterm -> Prop :=
| Ok_var : forall n, 0 <= n < 2 ^ 31 -> term_ok (WVar n)
| Ok_atom : forall s, bytes s -> fits s -> term_ok (WAtom s)
| Ok_int : forall n, - 2 ^ 60 <= n < 2 ^ 60 -> term_ok (WInt n)
| Ok_list : forall a b, term_ok a -> term_ok b -> term_ok (WList a b)
| Ok_stc : forall f l, bytes f -> fits f -> (1 <= length l <= 255)%nat ->
    (f <> [46] \/ length l <> 2%nat) -> Forall term_ok l -> term_ok (WStc f l).

(** the variables of a term *)
Fixpoint vars (t : wterm) : list Z :=
  match t with
  | WVar n => [n]
  | WAtom _ | WInt _ => []
  | WList a b => vars a ++ vars b
  | WStc _ l => flat_map vars l
  end.

(** [p] is the term [t], the variable number i of [p] being the i-th of [vs] *)
Inductive same (vs : list Z) : wterm -> pterm -> Prop :=
| Same_var : forall n i, nth_error vs i = Some n -> same vs (WVar n) (PVar i)
| Same_atom : forall s, same vs (WAtom s) (PAtom s)
| Same_int : forall n, same vs (WInt n) (PInt n)
| Same_list : forall a b p q, same vs a p -> same vs b q -> same vs (WList a b) (PList p q)
| Same_stc : forall f l m, Forall2 (same vs) l m -> same vs (WStc f l) (PStc f m).

(** * Texts that can be read without undefined behaviour (C58) *)

(** a character that is taken as part of a numeric escape: a hexadecimal digit, x or NUL *)
Definition escape_digit (c : Z) : Prop :=
  48 <= c <= 57 \/ 97 <= c <= 102 \/ 65 <= c <= 70 \/ c = 120 \/ c = 0.
(** a backslash is followed by at most 8 of them *)
Definition short_escapes (i : list Z) : Prop :=
  forall u v w, i = u ++ 92 :: v ++ w -> Forall escape_digit v -> (length v <= 8)%nat.
(** a sequence of letters, digits and _ has less than 1024 characters *)
Definition short_names (e : env) (i : list Z) : Prop :=
  forall u v w, i = u ++ v ++ w -> Forall (fun c => alnum (char_type e c) = true) v -> (length v < 1024)%nat.
