(** Boolean FD constraints: from the term to primitive constraints.  /repo/src/BipsFD/fd_bool_c.c.

    Simplifications: the words of the terms are trees; posting a primitive constraint is adding it to a list, and a
    failure is a list without solution ([holds], below, says what the primitives mean; C70 compares it with
    fd_bool_fd.fd).  The choice between partial and full arc consistency (pl_full_ac) does not change what a constraint
    means and is left out.  Pl_Load_Left_Right and Pl_Term_Math_Loading are one parameter. *)
Require Import ZArith List Bool String.
Import ListNotations.
Open Scope Z_scope.

(** The terms: unbound variables, FD variables, integers, other constants and lists, structures *)
Inductive term : Type := TRef (v : nat) | TFdv (v : nat) | TInt (n : Z) | TAtm | TOther | TStc (f : string) (args : list term).

(** fd_bool_c.c:55-86 *)
Definition NOT := 0. Definition EQUIV := 1. Definition NEQUIV := 2. Definition IMPLY := 3. Definition NIMPLY := 4.
Definition AND := 5. Definition NAND := 6. Definition OR := 7. Definition NOR := 8.
Definition EQ := 9. Definition NEQ := 10. Definition LT := 11. Definition GTE := 12. Definition GT := 13. Definition LTE := 14.
Definition EQ_F := 15. Definition NEQ_F := 16. Definition LT_F := 17. Definition GTE_F := 18. Definition GT_F := 19. Definition LTE_F := 20.
Definition ZERO := 21. Definition ONE := 22.
Definition BOOL_STACK_SIZE := 100000.
Definition VARS_STACK_SIZE := 100000.

Inductive res (A : Type) : Type :=
| Ret (x : A) | TypeErr | Resource     (* errors raised *)
| UB                                   (* outside of the stack, or an uninitialised word *)
| NoFuel.
Arguments Ret {A}. Arguments TypeErr {A}. Arguments Resource {A}. Arguments UB {A}. Arguments NoFuel {A}.
Definition bind {A B} (o : res A) (k : A -> res B) : res B :=
  match o with Ret x => k x | TypeErr => TypeErr | Resource => Resource | UB => UB | NoFuel => NoFuel end.
Notation "'do' x <- o ; k" := (bind o (fun x => k)) (at level 200, x pattern, k at level 200).

(** a word of the stack: an operator, a pointer into the stack, a tagged word *)
Inductive cell : Type := Op (n : Z) | Ptr (p : Z) | Wd (t : term).
Definition mem : Type := Z -> option cell.
(** vars_tbl: the last entry first; [true]: the flag 1 (FD variable) *)
Record st : Type := St { stack : mem; sp : Z; vars : list (nat * bool) }.

Definition upd (m : mem) (p : Z) (c : cell) : mem := fun q => if q =? p then Some c else m q.
Definition write (p : Z) (c : cell) (s : st) : res st :=
  if (0 <=? p) && (p <? BOOL_STACK_SIZE) then Ret (St (upd (stack s) p c) (sp s) (vars s)) else UB.
Definition read (p : Z) (s : st) : res cell := match stack s p with Some c => Ret c | None => UB end.
Definition set_sp (p : Z) (s : st) : st := St (stack s) p (vars s).
(** *sp++ = c *)
Definition push (c : cell) (s : st) : res st := do s <- write (sp s) c s; Ret (set_sp (sp s + 1) s).
(** *vars_sp++ = word; *vars_sp++ = flag, after the test of the size (fd_bool_c.c:394-398, 896-901) *)
Definition push_var (v : nat) (fd : bool) (s : st) : res st :=
  let n := 2 * Z.of_nat (List.length (vars s)) in
  if n =? VARS_STACK_SIZE then Resource
  else if VARS_STACK_SIZE <? n + 2 then UB
  else Ret (St (stack s) (sp s) ((v, fd) :: vars s)).

(** fd_bool_c.c:213-238 bool_tbl, bool_xor *)
Definition bool_tbl : list (string * nat) :=
  [("#\", 1%nat); ("#<=>", 2%nat); ("#\<=>", 2%nat); ("#==>", 2%nat); ("#\==>", 2%nat); ("#/\", 2%nat); ("#\/\", 2%nat);
   ("#\/", 2%nat); ("#\\/", 2%nat); ("#=", 2%nat); ("#\=", 2%nat); ("#<", 2%nat); ("#>=", 2%nat); ("#>", 2%nat); ("#=<", 2%nat);
   ("#=#", 2%nat); ("#\=#", 2%nat); ("#<#", 2%nat); ("#>=#", 2%nat); ("#>#", 2%nat); ("#=<#", 2%nat)]%string.
Definition bool_xor : string * nat := ("##", 2%nat)%string.
Definition same (a b : string * nat) : bool := String.eqb (fst a) (fst b) && Nat.eqb (snd a) (snd b).
Fixpoint index (f : string * nat) (op : Z) (l : list (string * nat)) : option Z :=
  match l with [] => None | g :: l => if same g f then Some op else index f (op + 1) l end.
(** fd_bool_c.c:434-450 *)
Definition find_op (f : string * nat) : option Z := if same bool_xor f then Some NEQUIV else index f 0 bool_tbl.

(** (int) of a 64-bit integer *)
Definition to_int (n : Z) : Z := let v := n mod 2 ^ 32 in if v <? 2 ^ 31 then v else v - 2 ^ 32.
Definition is (c : cell) (n : Z) : bool := match c with Op k => k =? n | _ => false end.
(** fd_bool_c.c:82; the words of variables and pointers are greater than ONE *)
Definition IsVar (c : cell) : bool := match c with Op k => ONE <=? k | _ => true end.

(** exp[i] += sizeof(WamWord) *)
Definition skip (p : Z) (s : st) : res st :=
  do c <- read p s; match c with Ptr q => write p (Ptr (q + 1)) s | _ => UB end.
Definition ptr (p : Z) (s : st) : res (Z * st) :=
  do c <- read p s; match c with Ptr q => Ret (q, s) | _ => UB end.
(** sp = exp; *sp++ = c; return exp *)
Definition const (exp : Z) (n : Z) (s : st) : res (Z * st) := do s <- push (Op n) (set_sp exp s); Ret (exp, s).
(** exp[0] = op, then [k]; return exp *)
Definition into (exp op : Z) (s : st) (k : st -> res st) : res (Z * st) :=
  do s <- write exp (Op op) s; do s <- k s; Ret (exp, s).
(** exp[i] = Simplify(...) *)
Definition store_at (p : Z) (f : st -> res (Z * st)) (s : st) : res st := do (q, s) <- f s; write p (Ptr q) s.
Definition keep (s : st) : res st := Ret s.

(** the switch of Simplify, fd_bool_c.c:487-801; [nl], [nr]: Simplify(-1, le_word), Simplify(-1, re_word) *)
Definition switch (op exp sp1 : Z) (l r : cell) (nl nr : st -> res (Z * st)) (s : st) : res (Z * st) :=
  if op =? EQUIV then
    if is l ZERO then nr (set_sp exp s)
    else if is l ONE then ptr (exp + 2) s
    else if is r ZERO then nl (set_sp exp s)
    else if is r ONE then ptr (exp + 1) (set_sp sp1 s)
    else if is l NOT then
      do s <- skip (exp + 1) s; do s <- store_at (exp + 2) nr (set_sp sp1 s); Ret (exp, s)
    else if is r NOT then
      do s <- store_at (exp + 1) nl s; do s <- skip (exp + 2) s; Ret (exp, s)
    else Ret (exp, s)
  else if op =? NEQUIV then
    if is l ZERO then ptr (exp + 2) s
    else if is l ONE then nr (set_sp exp s)
    else if is r ZERO then ptr (exp + 1) (set_sp sp1 s)
    else if is r ONE then nl (set_sp exp s)
    else if is l NOT then into exp EQUIV s (skip (exp + 1))
    else if is r NOT then into exp EQUIV s (skip (exp + 2))
    else if IsVar l && negb (IsVar r) then into exp EQUIV s (fun s => store_at (exp + 2) nr (set_sp sp1 s))
    else if IsVar r && negb (IsVar l) then into exp EQUIV s (store_at (exp + 1) nl)
    else Ret (exp, s)
  else if op =? IMPLY then
    if is l ZERO || is r ONE then const exp ONE s
    else if is l ONE then ptr (exp + 2) s
    else if is r ZERO then nl (set_sp exp s)
    else if is l NOT then into exp OR s (skip (exp + 1))
    else if is r NOT then
      do (q, s) <- ptr (exp + 2) s; do s <- write (exp + 1) (Ptr (q + 1)) s;
      do s <- store_at (exp + 2) nl s; Ret (exp, s)
    else Ret (exp, s)
  else if op =? NIMPLY then
    if is l ZERO || is r ONE then const exp ZERO s
    else if is l ONE then nr (set_sp exp s)
    else if is r ZERO then ptr (exp + 1) (set_sp sp1 s)
    else if is l NOT then into exp NOR s (skip (exp + 1))
    else if is r NOT then into exp AND s (skip (exp + 2))
    else Ret (exp, s)
  else if op =? AND then
    if is l ZERO || is r ZERO then const exp ZERO s
    else if is l ONE then ptr (exp + 2) s
    else if is r ONE then ptr (exp + 1) (set_sp sp1 s)
    else if is l NOT then
      into exp NIMPLY s (fun s => do (p1, s) <- ptr (exp + 1) s; do (p2, s) <- ptr (exp + 2) s;
        do s <- write (exp + 1) (Ptr p2) s; write (exp + 2) (Ptr (p1 + 1)) s)
    else if is r NOT then into exp NIMPLY s (skip (exp + 2))
    else Ret (exp, s)
  else if op =? NAND then
    if is l ZERO || is r ZERO then const exp ONE s
    else if is l ONE then nr (set_sp exp s)
    else if is r ONE then nl (set_sp exp s)
    else if is l NOT then
      into exp IMPLY s (fun s => do (p1, s) <- ptr (exp + 1) s; do (p2, s) <- ptr (exp + 2) s;
        do s <- write (exp + 1) (Ptr p2) s; write (exp + 2) (Ptr (p1 + 1)) s)
    else if is r NOT then into exp IMPLY s (skip (exp + 2))
    else Ret (exp, s)
  else if op =? OR then
    if is l ONE || is r ONE then const exp ONE s
    else if is l ZERO then ptr (exp + 2) s
    else if is r ZERO then ptr (exp + 1) (set_sp sp1 s)
    else if is l NOT then into exp IMPLY s (skip (exp + 1))
    else if is r NOT then
      into exp IMPLY s (fun s => do (p1, s) <- ptr (exp + 1) s; do (p2, s) <- ptr (exp + 2) s;
        do s <- write (exp + 1) (Ptr (p2 + 1)) s; write (exp + 2) (Ptr p1) s)
    else Ret (exp, s)
  else if op =? NOR then
    if is l ONE || is r ONE then const exp ZERO s
    else if is l ZERO then nr (set_sp exp s)
    else if is r ZERO then nl (set_sp exp s)
    else if is l NOT then into exp NIMPLY s (skip (exp + 1))
    else if is r NOT then
      into exp NIMPLY s (fun s => do (p1, s) <- ptr (exp + 1) s; do (p2, s) <- ptr (exp + 2) s;
        do s <- write (exp + 1) (Ptr (p2 + 1)) s; write (exp + 2) (Ptr p1) s)
    else Ret (exp, s)
  else Ret (exp, s).

(** fd_bool_c.c:886-923 Add_Fd_Variables; the elements of a list are those of [TStc "." [h; t]] *)
Fixpoint Add_Fd_Variables (e : term) (s : st) : res st :=
  match e with
  | TRef v => push_var v true s
  | TStc _ args =>                                          (* from the last argument on *)
    (fix all (l : list term) (s : st) : res st :=
       match l with [] => Ret s | t :: l => do s <- all l s; Add_Fd_Variables t s end) args s
  | _ => Ret s
  end.

(** fd_bool_c.c:371-803 *)
Fixpoint Simplify (sign : Z) (e : term) (s : st) : res (Z * st) :=
  let exp := sp s in
  if BOOL_STACK_SIZE - 5 <? sp s then Resource else
  match e with
  | TRef v | TFdv v =>
    do s <- push_var v false s;
    do s <- (if sign =? 1 then Ret s else push (Op NOT) s);
    do s <- push (Wd (TRef v)) s; Ret (exp, s)
  | TInt k =>
    let n := to_int k in
    if 1 <? n mod 2 ^ 32 then TypeErr
    else do s <- push (Op (ZERO + (if sign =? 1 then n else 1 - n))) s; Ret (exp, s)
  | TAtm | TOther => TypeErr
  | TStc f args =>
    match find_op (f, List.length args) with
    | None => TypeErr
    | Some op =>
      match args with
      | [le] => if op =? NOT then Simplify (- sign) le s else UB
      | [le; re] =>
        let op := if sign =? 1 then op else if op mod 2 =? EQ mod 2 then op + 1 else op - 1 in
        if (EQ <=? op) && (op <=? LTE_F) then
          do s <- Add_Fd_Variables le s; do s <- Add_Fd_Variables re s;
          let n := if (op =? GT) || (op =? GT_F) then op - 2 else if (op =? GTE) || (op =? GTE_F) then op + 2 else op in
          do s <- push (Op n) s;
          do s <- push (Wd (if n =? op then le else re)) s;
          do s <- push (Wd (if n =? op then re else le)) s; Ret (exp, s)
        else
          let s := set_sp (sp s + 3) s in
          do s <- write exp (Op op) s;
          do s <- store_at (exp + 1) (Simplify 1 le) s;
          let sp1 := sp s in
          do s <- store_at (exp + 2) (Simplify 1 re) s;
          do (p1, s) <- ptr (exp + 1) s; do (p2, s) <- ptr (exp + 2) s;
          do l <- read p1 s; do r <- read p2 s;
          switch op exp sp1 l r (Simplify (-1) le) (Simplify (-1) re) s
      | _ => UB
      end
    end
  end.

(** ** The constraints *)
Inductive word : Type := WVar (v : nat) | WInt (n : Z).
Inductive cst : Type :=
| CInt (n : Z) (w : word)                              (* Pl_Get_Integer *)
| CBool (w : word)                                     (* Pl_Fd_Check_For_Bool_Var, Pl_Fd_New_Bool_Variable *)
| CFd (w : word)                                       (* Pl_Fd_New_Variable *)
| not_x_eq_b (x b : word)
| x_equiv_y_eq_b (x y b : word) | x_nequiv_y_eq_b (x y b : word)
| x_imply_y_eq_b (x y b : word) | x_imply_y_eq_1 (x y : word) | x_nimply_y_eq_b (x y b : word)
| x_and_y_eq_b (x y b : word) | x_and_y_eq_0 (x y : word) | x_nand_y_eq_b (x y b : word)
| x_or_y_eq_b (x y b : word) | x_or_y_eq_1 (x y : word) | x_nor_y_eq_b (x y b : word)
| Unify_X_Y (x y : word)                               (* Pl_Fd_Math_Unify_X_Y *)
| truth_x_eq_c (x : word) (c : Z) (b : word) | truth_x_eq_y (x y b : word) | truth_x_plus_c_eq_y (x : word) (c : Z) (y b : word)
| truth_x_neq_c (x : word) (c : Z) (b : word) | truth_x_neq_y (x y b : word) | truth_x_plus_c_neq_y (x : word) (c : Z) (y b : word)
| truth_x_lt_y (x y b : word) | truth_x_lte_y (x y b : word) | truth_x_lte_c (x : word) (c : Z) (b : word)
| truth_x_gte_c (x : word) (c : Z) (b : word)
| truth_x_plus_c_lte_y (x : word) (c : Z) (y b : word) | truth_x_plus_c_gte_y (x : word) (c : Z) (y b : word)
| Fd_Eq_2 (l r : term) | Fd_Neq_2 (l r : term) | Fd_Lt_2 (l r : term) | Fd_Lte_2 (l r : term)
| Aux (P : (nat -> Z) -> Prop).                        (* what Pl_Load_Left_Right posts *)
(** [next]: the variables from here on do not exist yet *)
Record store : Type := Store { next : nat; csts : list cst }.
Definition post (c : cst) (s : store) : store := Store (next s) (c :: csts s).
(** Pl_Fd_New_Bool_Variable *)
Definition new_bool (s : store) : word * store := (WVar (next s), Store (S (next s)) (CBool (WVar (next s)) :: csts s)).
(** fd_bool_c.c:181-203 BOOL_CSTR_2, BOOL_CSTR_3 *)
Definition BOOL_CSTR (x y : word) (c : cst) (s : store) : store := post c (post (CBool y) (post (CBool x) s)).

(** /repo/src/BipsFD/math_supp.h:43-45 *)
Definition MASK_EMPTY := 0. Definition MASK_LEFT := 1. Definition MASK_RIGHT := 2.

Section Load.
(** Pl_Load_Left_Right(FALSE, ...), Pl_Term_Math_Loading: mask, c, l_word, r_word *)
Variable load_left_right : term -> term -> store -> store * (Z * Z * word * word).

(** fd_bool_c.c:1278-1559 Set_Eq, Set_Neq, Set_Lt, Set_Lte with the result in a word [b] *)
Definition Truth_Eq (le re : term) (b : word) (s : store) : store :=
  let '(s, (mask, c, l, r)) := load_left_right le re s in
  if mask =? MASK_EMPTY then post (CInt (Z.b2z (c =? 0)) b) s
  else if mask =? MASK_LEFT then if 0 <? c then post (CInt 0 b) s else post (truth_x_eq_c l (- c) b) s
  else if mask =? MASK_RIGHT then if c <? 0 then post (CInt 0 b) s else post (truth_x_eq_c r c b) s
  else if 0 <? c then post (truth_x_plus_c_eq_y l c r b) s
  else if c <? 0 then post (truth_x_plus_c_eq_y r (- c) l b) s
  else post (truth_x_eq_y l r b) s.
Definition Truth_Neq (le re : term) (b : word) (s : store) : store :=
  let '(s, (mask, c, l, r)) := load_left_right le re s in
  if mask =? MASK_EMPTY then post (CInt (Z.b2z (negb (c =? 0))) b) s
  else if mask =? MASK_LEFT then if 0 <? c then post (CInt 1 b) s else post (truth_x_neq_c l (- c) b) s
  else if mask =? MASK_RIGHT then if c <? 0 then post (CInt 1 b) s else post (truth_x_neq_c r c b) s
  else if 0 <? c then post (truth_x_plus_c_neq_y l c r b) s
  else if c <? 0 then post (truth_x_plus_c_neq_y r (- c) l b) s
  else post (truth_x_neq_y l r b) s.
Definition Truth_Lt (le re : term) (b : word) (s : store) : store :=
  let '(s, (mask, c, l, r)) := load_left_right le re s in
  if mask =? MASK_EMPTY then post (CInt (Z.b2z (c <? 0)) b) s
  else if mask =? MASK_LEFT then if 0 <=? c then post (CInt 0 b) s else post (truth_x_lte_c l (- c - 1) b) s
  else if mask =? MASK_RIGHT then if c <? 0 then post (CInt 1 b) s else post (truth_x_gte_c r (c + 1) b) s
  else if 0 <? c then post (truth_x_plus_c_lte_y l (c + 1) r b) s
  else if c <? 0 then post (truth_x_plus_c_gte_y r (- c - 1) l b) s
  else post (truth_x_lt_y l r b) s.
Definition Truth_Lte (le re : term) (b : word) (s : store) : store :=
  let '(s, (mask, c, l, r)) := load_left_right le re s in
  if mask =? MASK_EMPTY then post (CInt (Z.b2z (c <=? 0)) b) s
  else if mask =? MASK_LEFT then if 0 <? c then post (CInt 0 b) s else post (truth_x_lte_c l (- c) b) s
  else if mask =? MASK_RIGHT then if c <=? 0 then post (CInt 1 b) s else post (truth_x_gte_c r c b) s
  else if 0 <? c then post (truth_x_plus_c_lte_y l c r b) s
  else if c <? 0 then post (truth_x_plus_c_gte_y r (- c) l b) s
  else post (truth_x_lte_y l r b) s.

(** fd_bool_c.c:942-1559 Load_Bool_Into_Word and the functions of func_tbl.  [result]: 0, 1, or 2 for the word returned;
    [None]: no word.  [fuel] bounds the depth *)
Fixpoint Load (fuel : nat) (m : mem) (exp result : Z) (s : store) : res (option word * store) :=
  match fuel with
  | O => NoFuel
  | S fuel =>
    let load i result s := match m (exp + i) with Some (Ptr p) => Load fuel m p result s | _ => UB end in
    (* both operands into words *)
    let load2 s (k : word -> word -> store -> res (option word * store)) :=
      do (l, s) <- load 1 2 s; do (r, s) <- load 2 2 s;
      match l, r with Some l, Some r => k l r s | _, _ => UB end in
    let into_b (c : word -> cst) l r s := let (b, s) := new_bool s in Ret (Some b, BOOL_CSTR l r (c b) s) in
    let done s := Ret (None, s) in
    let set_equiv result s := load2 s (fun l r s =>
      if result =? 0 then done (BOOL_CSTR l r (not_x_eq_b l r) s)
      else if result =? 1 then done (post (Unify_X_Y l r) s)
      else into_b (x_equiv_y_eq_b l r) l r s) in
    let set_imply result s :=
      if result =? 0 then do (_, s) <- load 1 1 s; do (_, s) <- load 2 0 s; done s
      else load2 s (fun l r s =>
        if result =? 1 then done (BOOL_CSTR l r (x_imply_y_eq_1 l r) s) else into_b (x_imply_y_eq_b l r) l r s) in
    let set_and result s :=
      if result =? 1 then do (_, s) <- load 1 1 s; do (_, s) <- load 2 1 s; done s
      else load2 s (fun l r s =>
        if result =? 0 then done (BOOL_CSTR l r (x_and_y_eq_0 l r) s) else into_b (x_and_y_eq_b l r) l r s) in
    let set_or result s :=
      if result =? 0 then do (_, s) <- load 1 0 s; do (_, s) <- load 2 0 s; done s
      else load2 s (fun l r s =>
        if result =? 1 then done (BOOL_CSTR l r (x_or_y_eq_1 l r) s) else into_b (x_or_y_eq_b l r) l r s) in
    let truth (f : term -> term -> word -> store -> store) (f0 f1 : term -> term -> cst) :=
      match m (exp + 1), m (exp + 2) with
      | Some (Wd le), Some (Wd re) =>
        if result =? 0 then done (post (f0 le re) s)
        else if result =? 1 then done (post (f1 le re) s)
        else let (b, s) := new_bool s in Ret (Some b, f le re b s)
      | _, _ => UB
      end in
    match m exp with
    | Some (Op op) =>
      let op := if (EQ_F <=? op) && (op <=? LTE_F) then op - EQ_F + EQ else op in
      if op =? ZERO then if result =? 0 then done s else if result =? 1 then done (post (CInt 0 (WInt 1)) s) else UB
      else if op =? ONE then if result =? 0 then done (post (CInt 0 (WInt 1)) s) else if result =? 1 then done s else UB
      else if op =? NOT then
        match m (exp + 1) with
        | Some (Wd (TRef v)) =>
          if result =? 0 then done (post (CInt 1 (WVar v)) s)
          else if result =? 1 then done (post (CInt 0 (WVar v)) s)
          else let (b, s) := new_bool s in Ret (Some b, BOOL_CSTR (WVar v) b (not_x_eq_b (WVar v) b) s)
        | _ => UB
        end
      else if op =? EQUIV then set_equiv result s
      else if op =? NEQUIV then
        if result <=? 1 then set_equiv (1 - result) s else load2 s (fun l r s => into_b (x_nequiv_y_eq_b l r) l r s)
      else if op =? IMPLY then set_imply result s
      else if op =? NIMPLY then
        if result <=? 1 then set_imply (1 - result) s else load2 s (fun l r s => into_b (x_nimply_y_eq_b l r) l r s)
      else if op =? AND then set_and result s
      else if op =? NAND then
        if result <=? 1 then set_and (1 - result) s else load2 s (fun l r s => into_b (x_nand_y_eq_b l r) l r s)
      else if op =? OR then set_or result s
      else if op =? NOR then
        if result <=? 1 then set_or (1 - result) s else load2 s (fun l r s => into_b (x_nor_y_eq_b l r) l r s)
      else if op =? EQ then truth Truth_Eq Fd_Neq_2 Fd_Eq_2
      else if op =? NEQ then truth Truth_Neq Fd_Eq_2 Fd_Neq_2
      else if op =? LT then truth Truth_Lt (fun l r => Fd_Lte_2 r l) Fd_Lt_2
      else if op =? LTE then truth Truth_Lte (fun l r => Fd_Lt_2 r l) Fd_Lte_2
      else UB                                               (* func_tbl[op] is NULL *)
    | Some (Wd (TRef v)) =>
      if result =? 0 then done (post (CInt 0 (WVar v)) s)
      else if result =? 1 then done (post (CInt 1 (WVar v)) s)
      else Ret (Some (WVar v), s)
    | _ => UB
    end
  end.

(** fd_bool_c.c:305-323: the variables found *)
Definition check_vars (l : list (nat * bool)) (s : store) : store :=
  fold_left (fun s x => post (if snd x : bool then CFd (WVar (fst x)) else CBool (WVar (fst x))) s) l s.

(** fd_bool_c.c:278-327; [op]: the index in bool_tbl *)
Definition Fd_Bool_Meta_3 (fuel : nat) (le re : term) (op : nat) (s : store) : res store :=
  match nth_error bool_tbl op with
  | None => UB
  | Some (f, n) =>
    do (exp, x) <- Simplify 1 (TStc f (firstn n [le; re])) (St (fun _ => None) 0 []);
    do (_, s) <- Load fuel (stack x) exp 1 s;
    Ret (check_vars (vars x) s)
  end.
End Load.
