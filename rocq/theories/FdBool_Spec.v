(** What a boolean FD constraint means.  Nothing of the code is used but the type of terms and the names of the
    primitive constraints. *)
Require Import ZArith List Bool String.
Require Import Verif.FdBool_Model.
Import ListNotations.
Open Scope Z_scope.

Definition asg : Type := nat -> Z.

Section Meaning.
(** the value of an arithmetic term *)
Variable value : asg -> term -> Z.

(** truth by the names of the manual *)
Definition binary (f : string) (a b : bool) : option bool :=
  if String.eqb f "#<=>" then Some (Bool.eqb a b)
  else if String.eqb f "#\<=>" then Some (xorb a b)
  else if String.eqb f "##" then Some (xorb a b)
  else if String.eqb f "#==>" then Some (implb a b)
  else if String.eqb f "#\==>" then Some (negb (implb a b))
  else if String.eqb f "#/\" then Some (a && b)
  else if String.eqb f "#\/\" then Some (negb (a && b))
  else if String.eqb f "#\/" then Some (a || b)
  else if String.eqb f "#\\/" then Some (negb (a || b))
  else None.
Definition compare (f : string) (x y : Z) : option bool :=
  if String.eqb f "#=" || String.eqb f "#=#" then Some (x =? y)
  else if String.eqb f "#\=" || String.eqb f "#\=#" then Some (negb (x =? y))
  else if String.eqb f "#<" || String.eqb f "#<#" then Some (x <? y)
  else if String.eqb f "#>=" || String.eqb f "#>=#" then Some (y <=? x)
  else if String.eqb f "#>" || String.eqb f "#>#" then Some (y <? x)
  else if String.eqb f "#=<" || String.eqb f "#=<#" then Some (x <=? y)
  else None.

(** [None]: not a boolean expression *)
Fixpoint truth (a : asg) (e : term) : option bool :=
  match e with
  | TRef v | TFdv v => Some (a v =? 1)
  | TInt n => if n =? 0 then Some false else if n =? 1 then Some true else None
  | TStc f [x] => if String.eqb f "#\" then match truth a x with Some b => Some (negb b) | None => None end else None
  | TStc f [x; y] =>
    match compare f (value a x) (value a y) with
    | Some b => Some b
    | None => match truth a x, truth a y with Some b, Some d => binary f b d | _, _ => None end
    end
  | _ => None
  end.
End Meaning.

(** the variables used as booleans, and the arithmetic terms *)
Definition is_compare (f : string) : bool := match compare f 0 0 with Some _ => true | None => false end.
Fixpoint bool_vars (e : term) : list nat :=
  match e with
  | TRef v | TFdv v => [v]
  | TStc f [x] => bool_vars x
  | TStc f [x; y] => if is_compare f then [] else bool_vars x ++ bool_vars y
  | _ => []
  end.
Fixpoint arith_terms (e : term) : list term :=
  match e with
  | TStc f [x] => arith_terms x
  | TStc f [x; y] => if is_compare f then [x; y] else arith_terms x ++ arith_terms y
  | _ => []
  end.
(** the unbound variables of an arithmetic term *)
Fixpoint unbound (e : term) : list nat :=
  match e with
  | TRef v => [v]
  | TStc _ args => (fix all (l : list term) : list nat := match l with [] => [] | t :: l => unbound t ++ all l end) args
  | _ => []
  end.
Definition bit (z : Z) : Prop := z = 0 \/ z = 1.
Definition booleans (a : asg) (e : term) : Prop := forall v, In v (bool_vars e) -> bit (a v).

(** ** The primitive constraints *)
Definition val (a : asg) (w : word) : Z := match w with WVar v => a v | WInt n => n end.
(** the truth value [b] of [p] *)
Definition tells (b : Z) (p : bool) : Prop := b = Z.b2z p.
Definition tv (z : Z) : bool := z =? 1.
Section Primitives.
Variable value : asg -> term -> Z.
Definition holds (a : asg) (c : cst) : Prop :=
  let v := val a in
  match c with
  | CInt n w => v w = n
  | CBool w => bit (v w)
  | CFd w => 0 <= v w
  | not_x_eq_b x b => v b = 1 - v x
  | x_equiv_y_eq_b x y b => tells (v b) (Bool.eqb (tv (v x)) (tv (v y)))
  | x_nequiv_y_eq_b x y b => tells (v b) (xorb (tv (v x)) (tv (v y)))
  | x_imply_y_eq_b x y b => tells (v b) (implb (tv (v x)) (tv (v y)))
  | x_imply_y_eq_1 x y => implb (tv (v x)) (tv (v y)) = true
  | x_nimply_y_eq_b x y b => tells (v b) (negb (implb (tv (v x)) (tv (v y))))
  | x_and_y_eq_b x y b => tells (v b) (tv (v x) && tv (v y))
  | x_and_y_eq_0 x y => tv (v x) && tv (v y) = false
  | x_nand_y_eq_b x y b => tells (v b) (negb (tv (v x) && tv (v y)))
  | x_or_y_eq_b x y b => tells (v b) (tv (v x) || tv (v y))
  | x_or_y_eq_1 x y => tv (v x) || tv (v y) = true
  | x_nor_y_eq_b x y b => tells (v b) (negb (tv (v x) || tv (v y)))
  | Unify_X_Y x y => v x = v y
  | truth_x_eq_c x n b => tells (v b) (v x =? n)
  | truth_x_eq_y x y b => tells (v b) (v x =? v y)
  | truth_x_plus_c_eq_y x n y b => tells (v b) (v x + n =? v y)
  | truth_x_neq_c x n b => tells (v b) (negb (v x =? n))
  | truth_x_neq_y x y b => tells (v b) (negb (v x =? v y))
  | truth_x_plus_c_neq_y x n y b => tells (v b) (negb (v x + n =? v y))
  | truth_x_lt_y x y b => tells (v b) (v x <? v y)
  | truth_x_lte_y x y b => tells (v b) (v x <=? v y)
  | truth_x_lte_c x n b => tells (v b) (v x <=? n)
  | truth_x_gte_c x n b => tells (v b) (n <=? v x)
  | truth_x_plus_c_lte_y x n y b => tells (v b) (v x + n <=? v y)
  | truth_x_plus_c_gte_y x n y b => tells (v b) (v y <=? v x + n)
  | Fd_Eq_2 l r => value a l = value a r
  | Fd_Neq_2 l r => value a l <> value a r
  | Fd_Lt_2 l r => value a l < value a r
  | Fd_Lte_2 l r => value a l <= value a r
  | Aux P => P a
  end.
Definition sat (a : asg) (s : store) : Prop := forall k, In k (csts s) -> holds a k.

(** ** Variables *)
Definition agree (n : nat) (a b : asg) : Prop := forall v, (v < n)%nat -> a v = b v.
(** only about variables below [n] *)
Definition cst_below (n : nat) (k : cst) : Prop := forall a b, agree n a b -> holds a k -> holds b k.
Definition store_ok (s : store) : Prop := forall k, In k (csts s) -> cst_below (next s) k.
Definition term_below (n : nat) (t : term) : Prop :=
  (forall a b, agree n a b -> value a t = value b t) /\ forall v, In v (unbound t) -> (v < n)%nat.
Definition exp_below (n : nat) (e : term) : Prop :=
  (forall v, In v (bool_vars e) -> (v < n)%nat) /\ (forall t, In t (arith_terms e) -> term_below n t).
Definition word_below (n : nat) (w : word) : Prop := match w with WVar v => (v < n)%nat | WInt _ => True end.

(** what Pl_Load_Left_Right is relied on for: L - R = l + c - r where [mask] says which of the FD variables l, r
    there are; it loses no solution in which the terms are [defined] *)
Definition part (a : asg) (there : bool) (w : word) : Z := if there then val a w else 0.
Definition load_ok (defined : asg -> term -> Prop) (load_left_right : term -> term -> store -> store * (Z * Z * word * word)) : Prop :=
  forall le re s s' mask n l r,
    store_ok s -> term_below (next s) le -> term_below (next s) re ->
    load_left_right le re s = (s', (mask, n, l, r)) ->
    0 <= mask <= 3 /\ (next s <= next s')%nat /\ store_ok s' /\ word_below (next s') l /\ word_below (next s') r /\
    (forall a, sat a s' -> sat a s /\
       value a le - value a re = part a (Z.testbit mask 0) l + n - part a (Z.testbit mask 1) r /\
       0 <= part a (Z.testbit mask 0) l /\ 0 <= part a (Z.testbit mask 1) r) /\
    (forall a, sat a s -> defined a le -> defined a re -> exists a', agree (next s) a a' /\ sat a' s').
End Primitives.

(** ** A boolean expression: what the code should accept *)
Fixpoint proper (e : term) : Prop :=
  match e with
  | TRef _ | TFdv _ => True
  | TInt n => n = 0 \/ n = 1
  | TStc f [x] => f = "#\"%string /\ proper x
  | TStc f [x; y] => is_compare f = true \/ (binary f true true <> None /\ proper x /\ proper y)
  | _ => False
  end.
