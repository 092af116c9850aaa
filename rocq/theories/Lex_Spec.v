(** What it means to read back what was written (C43, C57). *)
Require Import ZArith List Bool.
Require Import Verif.Heap_Model Verif.Lex_Model Verif.Write_Model.
Import ListNotations.
Open Scope Z_scope.

(** the names of atoms: C strings *)
Definition bytes (s : list Z) : Prop := Forall (fun c => 1 <= c <= 255) s.
(** the name fits in the token buffer *)
Definition fits (s : list Z) : Prop := Z.of_nat (length s) < 1048576.
(** no character conversion *)
Definition no_conv (e : env) : Prop := forall c, conv e c = c.

(** what follows cannot be a continuation of a name or of a number: the end of file, or a
    character which is no letter, digit, _, graphic character, quote or NUL *)
Definition ends (e : env) (rest : list Z) : Prop :=
  match rest with
  | [] => True
  | c :: _ => c <> 0 /\
      match char_type e c with UL | CL | SL | DI | GR | QT => False | _ => True end
  end.

(** the tokens of a list of things written one after the other *)
Inductive item : Type :=
| IAtom (s : list Z) | IInt (n : Z) | IVar (n : Z) | IPunct (c : Z) | ISpace.

(** ( ) [ ] { } | , *)
Definition punct (c : Z) : bool := existsb (Z.eqb c) [40; 41; 91; 93; 123; 125; 124; 44].

(** variables and integers are printed from a C int and from a 61-bit integer *)
Definition item_ok (x : item) : Prop :=
  match x with
  | IAtom s => bytes s /\ fits s
  | IInt n => - 2 ^ 60 <= n < 2 ^ 60
  | IVar n => 0 <= n < 2 ^ 31
  | IPunct c => punct c = true
  | ISpace => True
  end.

(** the token [t] is the name [s], and is not a comma that could be a separator *)
Definition is_name (s : list Z) (t : token) : Prop :=
  exists q, t = TokName s q /\ (s = [44] -> q = true).

(** the decimal digits of n *)
Definition decimal (s : list Z) (n : Z) : Prop :=
  Forall (fun c => 48 <= c <= 57) s /\ s <> [] /\ (hd 0 s = 48 -> s = [48]) /\
  fold_left (fun x c => x * 10 + (c - 48)) s 0 = n.

(** the tokens of one thing; [sp]: there is a space before it *)
Inductive tokens_of (sp : bool) : item -> list token -> Prop :=
| T_nil : tokens_of sp (IAtom [91; 93]) [TokPunct 91; TokPunct 93]
| T_curly : tokens_of sp (IAtom [123; 125]) [TokPunct 123; TokPunct 125]
| T_atom : forall s t, s <> [91; 93] -> s <> [123; 125] -> is_name s t -> tokens_of sp (IAtom s) [t]
| T_pos : forall n, 0 <= n -> tokens_of sp (IInt n) [TokInt n]
| T_neg : forall n, n < 0 -> tokens_of sp (IInt n) [TokName [45] false; TokInt (- n)]
| T_var : forall n s, decimal s n -> tokens_of sp (IVar n) [TokVar (95 :: s)]
| T_open : tokens_of sp (IPunct 40) [if sp then TokPunct 40 else TokOpen]
| T_punct : forall c, c <> 40 -> tokens_of sp (IPunct c) [TokPunct c]
| T_space : tokens_of sp ISpace [].
Definition is_space (x : item) : bool := match x with ISpace => true | _ => false end.
Inductive tokens : bool -> list item -> list token -> Prop :=
| Tok_nil : forall sp, tokens sp [] []
| Tok_cons : forall sp x l t u, tokens_of sp x t -> tokens (is_space x) l u -> tokens sp (x :: l) (t ++ u).

(** write them *)
Definition Write_Item (e : env) (pr : Z -> bool) (x : item) : wr :=
  match x with
  | IAtom s => Show_Atom e pr true s
  | IInt n => Show_Integer e n
  | IVar n => Show_Var e n
  | IPunct c => Out_Char e c
  | ISpace => Out_Space
  end.
Fixpoint Write_Items (e : env) (pr : Z -> bool) (l : list item) : wr :=
  match l with
  | [] => fun s => ([], s)
  | x :: l => seqw (Write_Item e pr x) (Write_Items e pr l)
  end.

(** read [n] tokens without error, a comma being a separator *)
Fixpoint read_tokens (e : env) (n : nat) (i : list Z) : outcome (option (list token * list Z)) :=
  match n with
  | O => Ret (Some ([], i))
  | S n =>
    do r <- Lexer_Token e true i;
    match r with
    | (t, false, i) =>
      do r <- read_tokens e n i;
      match r with Some (l, i) => Ret (Some (t :: l, i)) | None => Ret None end
    | (_, true, _) => Ret None
    end
  end.
