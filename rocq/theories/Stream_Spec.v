(** What streams are to be: independent of Stream_Model. *)
Require Import ZArith List Bool.
Import ListNotations.
Open Scope Z_scope.

(** ** Positions of a text: characters, lines, column *)
Fixpoint lines (t : list Z) : Z := match t with [] => 0 | c :: t => (if c =? 10 then 1 else 0) + lines t end.
(** the characters after the last new line *)
Inductive last_line : list Z -> list Z -> Prop :=
| ll_first t : ~ In 10 t -> last_line t t
| ll_next a t : ~ In 10 t -> last_line (a ++ 10 :: t) t.
Definition is_pos (t : list Z) (p : Z * Z * Z) : Prop :=
  exists u, last_line t u /\ p = (Z.of_nat (length t), lines t, Z.of_nat (length u)).

(** ** The ideal input: what is still to be read, without end (-1 for ever after the text), and whether the end was read *)
Record inp := Inp { todo : nat -> Z; past : bool }.
Definition of_text (t : list Z) (i : nat) : Z := nth i t (-1).
Inductive op := Get | Peek | Unget (c : Z).
Inductive res := RChar (c : Z) | RErr | RNone.
(** what reading beyond the end does *)
Inductive beyond := BError | BCode | BReset (again : option (list Z)).
Definition before (b : beyond) (s : inp) : res + inp :=
  if past s then
    match b with
    | BError => inl RErr
    | BCode => inl (RChar (-1))
    | BReset None => inr (Inp (todo s) false)
    | BReset (Some t) => inr (Inp (of_text t) false)
    end
  else inr s.
Definition istep (b : beyond) (o : op) (s : inp) : res * inp :=
  match o with
  | Get => match before b s with inl r => (r, s) | inr s => (RChar (todo s 0%nat), Inp (fun i => todo s (S i)) (todo s 0%nat =? -1)) end
  | Peek => match before b s with inl r => (r, s) | inr s => (RChar (todo s 0%nat), s) end
  | Unget c => (RNone, Inp (fun i => match i with O => c | S i => todo s i end) false)
  end.
(** how many characters may be waiting in front of the text *)
Definition depth (b : beyond) (o : op) (s : inp) (d : nat) : nat :=
  match o with
  | Get => match before b s with inl _ => d | inr _ => (d - 1)%nat end
  | Peek => match before b s with inl _ => d | inr _ => Nat.max d 1 end
  | Unget _ => S d
  end.
Fixpoint shallow (b : beyond) (l : list op) (s : inp) (d : nat) : Prop :=
  match l with [] => True | o :: l => (depth b o s d <= 8)%nat /\ shallow b l (snd (istep b o s)) (depth b o s d) end.
Fixpoint irun (b : beyond) (l : list op) (s : inp) : list res * inp :=
  match l with [] => ([], s) | o :: l => let '(r, s) := istep b o s in let '(rs, s) := irun b l s in (r :: rs, s) end.

(** ** A cursor in a text: read before (last first), to be read; only what was read can be put back *)
Inductive cursor : list op -> list Z -> list Z -> list Z -> list Z -> Prop :=
| cu_nil r u : cursor [] r u r u
| cu_get l c r u r' u' : cursor l (c :: r) u r' u' -> cursor (Get :: l) r (c :: u) r' u'
| cu_peek l r u r' u' : cursor l r u r' u' -> cursor (Peek :: l) r u r' u'
| cu_unget l c r u r' u' : cursor l r (c :: u) r' u' -> cursor (Unget c :: l) (c :: r) u r' u'.
(** no peek at the end of the text *)
Inductive cursor_in : list op -> list Z -> list Z -> list Z -> list Z -> Prop :=
| ci_nil r u : cursor_in [] r u r u
| ci_get l c r u r' u' : cursor_in l (c :: r) u r' u' -> cursor_in (Get :: l) r (c :: u) r' u'
| ci_peek l r u r' u' : u <> [] -> cursor_in l r u r' u' -> cursor_in (Peek :: l) r u r' u'
| ci_unget l c r u r' u' : cursor_in l r (c :: u) r' u' -> cursor_in (Unget c :: l) (c :: r) u r' u'.
(** at most eight characters wait in front of the text *)
Fixpoint put_back (l : list op) (d : nat) : Prop :=
  match l with
  | [] => True
  | Get :: l => put_back l (d - 1)
  | Peek :: l => put_back l (Nat.max d 1)
  | Unget _ :: l => (d < 8)%nat /\ put_back l (S d)
  end.
Fixpoint first_line (u : list Z) : list Z := match u with [] => [] | c :: u => if c =? 10 then [c] else c :: first_line u end.
(** the text has that line and that column (both from 0), just after [t] *)
Definition has_pos (f t : list Z) (lc lp : Z) : Prop := (exists u, f = t ++ u) /\ is_pos t (Z.of_nat (length t), lc, lp).
