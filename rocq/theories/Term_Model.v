(** Terms as finite trees, after dereferencing, and the standard order as
    computed by Pl_Term_Compare on them. *)
Require Import ZArith List Floats.SpecFloat.
Import ListNotations.
Open Scope Z_scope.

(** What a dereferenced word stands for.  Variables are identified by their
    address, atoms by their index in pl_atom_tbl.  Lists are compound terms
    '.'/2 (Pl_Rd_Compound, /repo/src/BipsPl/c_supp.c:1389-1414). *)
Inductive term : Type :=
| TVar (a : Z)
| TFdv (a : Z)
| TFlt (d : spec_float)
| TInt (n : Z)
| TAtm (i : Z)
| TCmp (f : Z) (args : list term).

(** strcmp on C strings: byte lists without the final NUL, bytes in 1..255;
    only the sign of the result matters *)
Fixpoint strcmp (s t : list Z) : Z :=
  match s, t with
  | [], [] => 0
  | [], _ => -1
  | _, [] => 1
  | x :: s', y :: t' => if x <? y then -1 else if y <? x then 1 else strcmp s' t'
  end.

(** /repo/src/BipsPl/term_supp.c:135: (d1 < d2) ? -1 : (d1 == d2) ? 0 : 1 *)
Definition fltcmp (d1 d2 : spec_float) : Z :=
  if SFltb d1 d2 then -1 else if SFeqb d1 d2 then 0 else 1.

Section Compare.
(** pl_atom_tbl[i].name *)
Variable name : Z -> list Z.

(** /repo/src/BipsPl/term_supp.c:90-179 on trees *)
Fixpoint tcmp (u v : term) {struct u} : Z :=
  match u with
  | TVar a => match v with TVar b => a - b | _ => -1 end
  | TFdv a =>
    match v with
    | TVar _ => 1
    | TFdv b => a - b
    | _ => -1
    end
  | TFlt d1 =>
    match v with
    | TVar _ | TFdv _ => 1
    | TFlt d2 => fltcmp d1 d2
    | _ => -1
    end
  | TInt m =>
    match v with
    | TVar _ | TFdv _ | TFlt _ => 1
    | TInt n => m - n
    | _ => -1
    end
  | TAtm i =>
    match v with
    | TVar _ | TFdv _ | TFlt _ | TInt _ => 1
    | TAtm j => strcmp (name i) (name j)
    | _ => -1
    end
  | TCmp f us =>
    match v with
    | TCmp g vs =>
      let nu := Z.of_nat (length us) in
      let nv := Z.of_nat (length vs) in
      if negb (nu =? nv) then nu - nv
      else if negb (f =? g) then strcmp (name f) (name g)
      else
        (fix args (us vs : list term) : Z :=
           match us, vs with
           | u :: us, v :: vs =>
             let x := tcmp u v in
             if negb (x =? 0) then x else args us vs
           | _, _ => 0
           end) us vs
    | _ => 1
    end
  end.

Fixpoint tcmp_args (us vs : list term) : Z :=
  match us, vs with
  | u :: us, v :: vs =>
    let x := tcmp u v in
    if negb (x =? 0) then x else tcmp_args us vs
  | _, _ => 0
  end.

End Compare.
