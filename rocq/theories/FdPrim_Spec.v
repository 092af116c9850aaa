(** What the primitive constraints mean: [holds] of FdBool_Spec; domains as sets. *)
Require Import ZArith List Bool Permutation.
Require Import Verif.FdPrim_Model.
Require Verif.FdBool_Model Verif.FdBool_Spec.
Import ListNotations.
Open Scope Z_scope.

(** the bounds belong to the domain *)
Definition wf (d : dom) : Prop :=
  mem d (lo d) = true /\ mem d (hi d) = true /\ (forall z, mem d z = true -> lo d <= z <= hi d) /\ 0 <= lo d /\ hi d <= max_integer.
(** B is a boolean *)
Definition env_ok (e : env) : Prop := (forall v, wf (e v)) /\ hi (e B) <= 1.
Definition all_bool (e : env) : Prop := forall v, hi (e v) <= 1.
Definition sub (e' e : env) : Prop := forall v z, mem (e' v) z = true -> mem (e v) z = true.
Definition asg : Type := nat -> Z.
Definition inside (e : env) (g : asg) : Prop := forall v, mem (e v) (g v) = true.
Definition fixed (e : env) (v : nat) : Prop := lo (e v) = hi (e v).

Section Tables.
Import FdBool_Model.
Let x := WVar X. Let y := WVar Y. Let b := WVar B.
(** the primitives with the constraints of C69 *)
Definition bool_table : list (prim * cst) :=
  [(p_not_x_eq_b, not_x_eq_b x b);
   (p_x_equiv_y_eq_b, x_equiv_y_eq_b x y b); (p_x_nequiv_y_eq_b, x_nequiv_y_eq_b x y b);
   (p_x_imply_y_eq_b, x_imply_y_eq_b x y b); (p_x_imply_y_eq_1, x_imply_y_eq_1 x y); (p_x_nimply_y_eq_b, x_nimply_y_eq_b x y b);
   (p_x_and_y_eq_b, x_and_y_eq_b x y b); (p_x_and_y_eq_0, x_and_y_eq_0 x y); (p_x_nand_y_eq_b, x_nand_y_eq_b x y b);
   (p_x_or_y_eq_b, x_or_y_eq_b x y b); (p_x_or_y_eq_1, x_or_y_eq_1 x y); (p_x_nor_y_eq_b, x_nor_y_eq_b x y b)].
Definition truth_table (c l u : Z) : list (prim * cst) :=
  [(p_truth_x_eq_c c, truth_x_eq_c x c b); (p_truth_x_eq_y, truth_x_eq_y x y b); (p_truth_x_plus_c_eq_y c, truth_x_plus_c_eq_y x c y b);
   (p_truth_x_eq_c_F c, truth_x_eq_c x c b); (p_truth_x_eq_y_F, truth_x_eq_y x y b); (p_truth_x_plus_c_eq_y_F c, truth_x_plus_c_eq_y x c y b);
   (p_truth_x_neq_c c, truth_x_neq_c x c b); (p_truth_x_neq_y, truth_x_neq_y x y b); (p_truth_x_plus_c_neq_y c, truth_x_plus_c_neq_y x c y b);
   (p_truth_x_neq_c_F c, truth_x_neq_c x c b); (p_truth_x_neq_y_F, truth_x_neq_y x y b); (p_truth_x_plus_c_neq_y_F c, truth_x_plus_c_neq_y x c y b);
   (p_truth_x_lt_y, truth_x_lt_y x y b); (p_truth_x_lte_c c, truth_x_lte_c x c b); (p_truth_x_lte_y, truth_x_lte_y x y b);
   (p_truth_x_plus_c_lte_y c, truth_x_plus_c_lte_y x c y b); (p_truth_x_gte_c c, truth_x_gte_c x c b);
   (p_truth_x_plus_c_gte_y c, truth_x_plus_c_gte_y x c y b);
   (p_truth_x_in_l_u l u, Aux (fun a => a B = Z.b2z ((l <=? a X) && (a X <=? u))))].
End Tables.
(** the variables that a primitive restricts *)
Definition targets (p : prim) : list nat := flat_map (fun x => map target (snd x)) p.
