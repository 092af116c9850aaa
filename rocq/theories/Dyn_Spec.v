(** What a database of clauses must do. *)
Require Import ZArith List Bool.
Require Import Verif.Dyn_Model.
Import ListNotations.
Open Scope Z_scope.

(** A clause: a number that identifies it, its first argument, the rest. *)
Record entry := Entry { eid : nat; earg : arg; edata : nat }.
Definition shown (e : entry) : arg * nat := (earg e, edata e).
(** The clauses that a goal with first argument [a] is given: all those of another kind or value are left out,
    unless the goal or the clause has a variable there.  Goals with a float are given all clauses. *)
Definition given (a : arg) (e : entry) : bool :=
  match a, earg e with
  | AArity0, _ | AVar, _ | AFlt _, _ | _, AVar => true
  | AInt m, AInt n | AAtm m, AAtm n | AStc m, AStc n => m =? n
  | ALst, ALst => true
  | _, _ => false
  end.
(** A goal keeps the list of the clauses that it is still to be given. *)
Inductive aframe := AOther (e : list entry) | AScan (p : nat) (k : kind) (l : list entry) (e : list entry).
Record ast := Ast { db : nat -> list entry; count : nat; astk : list aframe; aenv : list entry; acur : option entry }.
Definition without (x : nat) (l : list entry) : list entry := filter (fun e => negb (Nat.eqb (eid e) x)) l.
Definition afound (s : ast) (p : nat) (x : entry) (k : kind) (u : bool) : ast :=
  match k with
  | KClause => s
  | KBC => Ast (db s) (count s) (astk s) (aenv s) (Some x)
  | KRetract => if u then Ast (fun q => without (eid x) (db s q)) (count s) (astk s) (aenv s) (acur s) else s
  end.
Definition astep (s : ast) (o : op) : option (arg * nat) * ast :=
  let c0 := acur s in
  let s := Ast (db s) (count s) (astk s) (aenv s) None in
  match o with
  | Assert p asserta a data _ =>
    let x := Entry (count s) a data in
    (None, Ast (upd (db s) p (if asserta then x :: db s p else db s p ++ [x])) (S (count s)) (astk s) (aenv s) None)
  | Call p a k u =>
    match filter (given a) (db s p) with
    | [] => (None, s)
    | x :: l =>
      let s := match l with [] => s | _ => Ast (db s) (count s) (AScan p k l (aenv s) :: astk s) (aenv s) None end in
      (Some (shown x), afound s p x k u)
    end
  | Redo u =>
    match astk s with
    | AScan p k (x :: l) e :: r =>
      let s := Ast (db s) (count s) (match l with [] => r | _ => AScan p k l e :: r end) e None in
      (Some (shown x), afound s p x k u)
    | _ => (None, s)
    end
  | Other => (None, Ast (db s) (count s) (AOther (aenv s) :: astk s) (aenv s) None)
  | Back => match astk s with AOther e :: l => (None, Ast (db s) (count s) l e None) | _ => (None, s) end
  | Cut n => (None, Ast (db s) (count s) (skipn n (astk s)) (aenv s) None)
  | Enter => match c0 with Some x => (None, Ast (db s) (count s) (astk s) (x :: aenv s) None) | None => (None, s) end
  | Leave => (None, Ast (db s) (count s) (astk s) (tl (aenv s)) None)
  | Run => match aenv s with x :: _ => (Some (shown x), s) | [] => (None, s) end
  | Erase_Pred p => (None, Ast (upd (db s) p []) (count s) (astk s) (aenv s) None)
  end.
Fixpoint asteps (s : ast) (l : list op) : list (option (arg * nat)) * ast :=
  match l with [] => ([], s) | o :: l => let r := astep s o in let q := asteps (snd r) l in (fst r :: fst q, snd q) end.
Definition astart : ast := Ast (fun _ => []) 0 [] [] None.
(** What the code relies on: a predicate is not erased as a whole while a retract/1 on it has alternatives. *)
Definition no_retract (p : nat) (s : ast) : Prop := forall k l e, In (AScan p k l e) (astk s) -> k <> KRetract.
Fixpoint allowed (s : ast) (l : list op) : Prop :=
  match l with
  | [] => True
  | o :: l => match o with Erase_Pred p => no_retract p s | _ => True end /\ allowed (snd (astep s o)) l
  end.
(** The clause numbers are ints, the stamps are 64-bit. *)
Definition asserts (l : list op) : Z := Z.of_nat (length (filter (fun o => match o with Assert _ _ _ _ _ => true | _ => false end) l)).
Definition calls (l : list op) : Z := Z.of_nat (length (filter (fun o => match o with Call _ _ _ _ => true | _ => false end) l)).
