(** append/3, member/2, memberchk/2, length/2, nth0/3, nth1/3 and reverse/2.
    /repo/src/BipsPl/list_c.c.

    The heap and the instructions Pl_Get_List, Pl_Unify_Value, Pl_Unify_Variable,
    Pl_Get_Nil and Pl_Unify are those of Unify_Model, Binding_Model and Copy_Model.

    A predicate gives its answer (the state in which it succeeds, or a failure) and the
    choice point it leaves, if any.  A choice point is the state saved and the argument
    registers.  Backtracking restores that state (C12), so the alternative is run on it. *)
Require Import ZArith List Bool.
Require Import Verif.Term_Model Verif.Heap_Model Verif.Unify_Model Verif.Binding_Model
  Verif.Copy_Model.
Import ListNotations.
Open Scope Z_scope.

(** result: success, failure, heap overflow (fatal error), FD solver called (not
    modelled), Prolog error thrown *)
Inductive lres (A : Type) : Type := Ok (x : A) | No | Fatal | Fd | Err.
Arguments Ok {A} x. Arguments No {A}. Arguments Fatal {A}. Arguments Fd {A}. Arguments Err {A}.

(** the saved state and A(0), A(1), A(2) *)
Record chp : Type := Chp { c_s : hst; c_0 : word; c_1 : word; c_2 : word }.
Definition res : Type := lres hst * option chp.

(** the value of a result, or the same failure in another type *)
Definition lbind {A B} (r : lres A) (k : A -> outcome (lres B)) : outcome (lres B) :=
  match r with Ok x => k x | No => Ret No | Fatal => Ret Fatal | Fd => Ret Fd | Err => Ret Err end.
Notation "'get' x <- r ; k" := (lbind r (fun x => k)) (at level 60, x pattern, right associativity).

(** [n] more cells fit below the local stack; a store beyond is a fatal error *)
Definition room (c : cfg) (s : hst) (md : option addr) (n : Z) : bool :=
  match md with Some _ => true | None => hH s + n <=? LSSA c end.

(** Pl_Unify, as a result *)
Definition unify (fuel : nat) (c : cfg) (s : hst) (u v : word) : outcome (lres hst) :=
  do r <- Unify false fuel c (hm s) u v;
  match r with
  | (USucc, t) => Ret (Ok (Hst t (hH s)))
  | (UFail, _) => Ret No
  | (UFd, _) => Ret Fd
  end.

(** Pl_Get_List(w); x = Pl_Unify_Variable(); y = Pl_Unify_Variable();
    [chk]: the result of Pl_Get_List is tested; if not, going on after its failure would
    use a stale register S: UB *)
Definition open_list (chk : bool) (fuel : nat) (c : cfg) (s : hst) (w : word)
  : outcome (lres (word * word * hst)) :=
  do g <- Get_List fuel c s w;
  match g with
  | None => if chk then Ret No else UB
  | Some (s, md) =>
    if room c s md 2 then
      do x <- Unify_Variable s md;
      do y <- Unify_Variable (snd (fst x)) (snd x);
      Ret (Ok (fst (fst x), fst (fst y), snd (fst y)))
    else Ret Fatal
  end.

(** Pl_Get_List(w); Pl_Unify_Value(x); y = Pl_Unify_Variable();
    [chk]: the results are tested; if not, the code goes on after a failed unification *)
Definition put_list (chk : bool) (fuel : nat) (c : cfg) (s : hst) (w x : word)
  : outcome (lres (word * hst)) :=
  do g <- Get_List fuel c s w;
  match g with
  | None => if chk then Ret No else UB
  | Some (s, md) =>
    if room c s md 2 then
      do r <- Unify_Value fuel c s md x;
      match r with
      | (UFd, _, _) => Ret Fd
      | (u, s, md) =>
        if match u with USucc => true | _ => negb chk end then
          do y <- Unify_Variable s md;
          Ret (Ok (fst (fst y), snd (fst y)))
        else Ret No
      end
    else Ret Fatal
  end.

(** word = Tag_LST(H); *H++ = x; *H++ = y; *)
Definition cons_cell (c : cfg) (s : hst) (x y : word) : outcome (lres (word * hst)) :=
  if hH s + 2 <=? LSSA c then Ret (Ok (LST (hH s), Global_Push (Global_Push s x) y)) else Ret Fatal.

(** /repo/src/EnginePl/wam_inst.c:246-277 Pl_Get_Integer (not on FD variables) *)
Definition Get_Integer (fuel : nat) (c : cfg) (s : hst) (n : Z) (w : word) : outcome (lres hst) :=
  do w <- deref fuel (mm (hm s)) w;
  match w with
  | REF a => Ret (Ok (Hst (Bind_UV c (hm s) a (INT n)) (hH s)))
  | FDV _ => Ret Fd
  | w => if word_eqb w (INT n) then Ret (Ok s) else Ret No
  end.

(** an [int] counter: the 2^31-th increment overflows *)
Definition incr (n : Z) : outcome Z := if n <? 2147483647 then Ret (n + 1) else UB.

Section Lists.
Variable nil : Z.                              (* the atom '[]' *)

(** Pl_Get_Nil as a result *)
Definition get_nil (fuel : nat) (c : cfg) (s : hst) (w : word) : outcome (lres hst) :=
  do b <- Get_Nil nil fuel c s w; Ret (if fst b then Ok (snd b) else No).

(** /repo/src/BipsPl/term_supp.c:250-271 Pl_List_Length; [k] bounds the number of cells read *)
Fixpoint List_Length (k fuel : nat) (m : mem) (n : Z) (w : word) : outcome Z :=
  match k with
  | O => NoFuel
  | S k =>
    do w <- deref fuel m w;
    match w with
    | ATM i => if i =? nil then Ret n else Ret (-2)
    | REF _ => Ret (-1)
    | LST a => do n <- incr n; do w <- rd_word m (a + 1); List_Length k fuel m n w
    | _ => Ret (-2)
    end
  end.

(** /repo/src/BipsPl/type_inl_c.c:291-307 Pl_Blt_List_Or_Partial_List *)
Fixpoint List_Or_Partial_List (k fuel : nat) (m : mem) (w : word) : outcome bool :=
  match k with
  | O => NoFuel
  | S k =>
    do w <- deref fuel m w;
    match w with
    | ATM i => Ret (i =? nil)
    | REF _ => Ret true
    | LST a => do w <- rd_word m (a + 1); List_Or_Partial_List k fuel m w
    | _ => Ret false
    end
  end.

(** ** append/3 *)

(** list_c.c:87-101: the first loop of Pl_Append_3; gives the end of L1 (dereferenced and
    not) and what is left of L3 *)
Fixpoint append_walk (k fuel : nat) (c : cfg) (s : hst) (l1 l3 : word)
  : outcome (lres (word * word * word * hst)) :=
  match k with
  | O => NoFuel
  | S k =>
    do w <- deref fuel (mm (hm s)) l1;
    match w with
    | LST a =>
      do x <- rd_word (mm (hm s)) a;
      do r <- put_list true fuel c s l3 x;
      get (l3, s) <- r;
      do l1 <- rd_word (mm (hm s)) (a + 1);
      append_walk k fuel c s l1 l3
    | w => Ret (Ok (w, l1, l3, s))
    end
  end.

(** list_c.c:116-125: L1 becomes the list of the [n] first elements of L3 *)
Fixpoint append_prefix (n : nat) (fuel : nat) (c : cfg) (s : hst) (l1 l3 : word)
  : outcome (lres (word * word * hst)) :=
  match n with
  | O => Ret (Ok (l1, l3, s))
  | S n =>
    do w <- deref fuel (mm (hm s)) l3;
    match w with
    | LST a =>
      do x <- rd_word (mm (hm s)) a;
      do r <- put_list false fuel c s l1 x;
      get (l1, s) <- r;
      do l3 <- rd_word (mm (hm s)) (a + 1);
      append_prefix n fuel c s l1 l3
    | _ => UB
    end
  end.

(** no choice point *)
Definition det (r : outcome (lres hst)) : outcome res := do x <- r; Ret (x, None).

(** list_c.c:131-143 and 172-177: L1 is a variable.  The choice point is made before
    L1 is bound. *)
Definition append_var (fuel : nat) (c : cfg) (s : hst) (l1 l2 l3 : word) : outcome res :=
  do w <- deref fuel (mm (hm s)) l3;
  do r <- get_nil fuel c s l1;
  do x <- (get s <- r; unify fuel c s l2 l3);
  Ret (x, match w with REF _ | LST _ => Some (Chp s l1 l2 l3) | _ => None end).

(** list_c.c:80-144 Pl_Append_3 *)
Definition Append_3 (k fuel : nat) (c : cfg) (s : hst) (l1 l2 l3 : word) : outcome res :=
  do r <- append_walk k fuel c s l1 l3;
  match r with
  | Ok (w, l1, l3, s) =>
    match w with
    | ATM i => if i =? nil then det (unify fuel c s l2 l3) else Ret (No, None)
    | REF _ =>
      do len2 <- List_Length k fuel (mm (hm s)) 0 l2;
      do len3 <- (if 0 <=? len2 then List_Length k fuel (mm (hm s)) 0 l3 else Ret (-1));
      if 0 <=? len3 then
        if len3 - len2 <? 0 then Ret (No, None)
        else det (do r <- append_prefix (Z.to_nat (len3 - len2)) fuel c s l1 l3;
                  get (l1, l3, s) <- r;
                  do r <- get_nil fuel c s l1;
                  get s <- r;
                  unify fuel c s l2 l3)
      else append_var fuel c s l1 l2 l3
    | _ => Ret (No, None)
    end
  | No => Ret (No, None) | Fatal => Ret (Fatal, None) | Fd => Ret (Fd, None) | Err => Ret (Err, None)
  end.

(** list_c.c:153-178 Pl_Append_Alt_0 *)
Definition Append_Alt_0 (fuel : nat) (c : cfg) (b : chp) : outcome res :=
  do r <- open_list false fuel c (c_s b) (c_2 b);
  match r with
  | Ok (x, l3, s) =>
    do r <- put_list false fuel c s (c_0 b) x;
    match r with
    | Ok (l1, s) => append_var fuel c s l1 (c_1 b) l3
    | No => Ret (No, None) | Fatal => Ret (Fatal, None) | Fd => Ret (Fd, None) | Err => Ret (Err, None)
    end
  | No => Ret (No, None) | Fatal => Ret (Fatal, None) | Fd => Ret (Fd, None) | Err => Ret (Err, None)
  end.

(** ** member/2 *)

(** list_c.c:203-239 Pl_Member_3.  Pl_Delete_Choice_Point restores the state saved. *)
Fixpoint Member_3 (k fuel : nat) (c : cfg) (s : hst) (x e t : word) : outcome res :=
  match k with
  | O => NoFuel
  | S k =>
    do r <- Unify false fuel c (hm s) x e;
    let s' := Hst (snd r) (hH s) in
    do w <- deref fuel (mm (hm s')) t;
    match fst r with
    | UFd => Ret (Fd, None)
    | u =>
      match w with
      | REF _ | LST _ =>
        match u with
        | USucc => Ret (Ok s', Some (Chp s x e w))
        | _ =>
          do r <- open_list false fuel c s t;
          match r with
          | Ok (e, t, s) => Member_3 k fuel c s x e t
          | No => Ret (No, None) | Fatal => Ret (Fatal, None) | Fd => Ret (Fd, None) | Err => Ret (Err, None)
          end
        end
      | _ => Ret (match u with USucc => Ok s' | _ => No end, None)
      end
    end
  end.

(** list_c.c:191-201 Pl_Member_2 *)
Definition Member_2 (k fuel : nat) (c : cfg) (s : hst) (x l : word) : outcome res :=
  do r <- open_list true fuel c s l;
  match r with
  | Ok (e, t, s) => Member_3 k fuel c s x e t
  | No => Ret (No, None) | Fatal => Ret (Fatal, None) | Fd => Ret (Fd, None) | Err => Ret (Err, None)
  end.

(** list_c.c:248-261 Pl_Member_Alt_0 *)
Definition Member_Alt_0 (k fuel : nat) (c : cfg) (b : chp) : outcome res :=
  do r <- open_list false fuel c (c_s b) (c_2 b);
  match r with
  | Ok (e, t, s) => Member_3 k fuel c s (c_0 b) e t
  | No => Ret (No, None) | Fatal => Ret (Fatal, None) | Fd => Ret (Fd, None) | Err => Ret (Err, None)
  end.

(** list_c.c:270-298 Pl_Memberchk_2.  Up to the success the list is read and not
    extended, so Pl_Defeasible_Undo goes back to the state of the call. *)
Fixpoint Memberchk_2 (k fuel : nat) (c : cfg) (s : hst) (x l : word) : outcome (lres hst) :=
  match k with
  | O => NoFuel
  | S k =>
    do g <- Get_List fuel c s l;
    match g with
    | None => Ret No
    | Some (s1, md) =>
      if room c s1 md 2 then
        do r <- Unify_Value fuel c s1 md x;
        match r with
        | (UFd, _, _) => Ret Fd
        | (USucc, s2, None) => Ret (Ok (Global_Push s2 (REF (hH s2))))
        | (USucc, s2, Some _) => Ret (Ok s2)
        | (UFail, _, md) => do y <- Unify_Variable s md; Memberchk_2 k fuel c s x (fst (fst y))
        end
      else Ret Fatal
    end
  end.

(** ** length/2 *)

(** list_c.c:336-408: the loop of Pl_Length_2; [nw] is the second argument dereferenced,
    [n] its value or -1; [strict] is the Prolog flag strict_iso.  A variable at the end of
    the list with [n < 0] ends the loop with the tail and the length so far. *)
Fixpoint length_walk (k fuel : nat) (c : cfg) (strict : bool) (s : hst) (l : word) (nw : word) (n len : Z)
  : outcome (lres (hst + word * Z)) :=
  match k with
  | O => NoFuel
  | S k =>
    do w <- deref fuel (mm (hm s)) l;
    match w with
    | REF a =>
      if n <? 0 then if word_eqb w nw then Ret Err else Ret (Ok (inr (l, len)))
      else if n =? len then
        do r <- get_nil fuel c s w; get s <- r; Ret (Ok (inl s))
      else
        do r <- open_list false fuel c s w;
        get (_, l, s) <- r;
        length_walk k fuel c strict s l nw n (len + 1)
    | LST a =>
      if negb (n <? 0) && (n <? len + 1) then
        if strict then Ret No
        else do b <- List_Or_Partial_List k fuel (mm (hm s)) w; Ret (if b then No else Err)
      else
        do l <- rd_word (mm (hm s)) (a + 1);
        length_walk k fuel c strict s l nw n (len + 1)
    | w =>
      if word_eqb w (ATM nil) then
        if n =? len then Ret (Ok (inl s))
        else do r <- Get_Integer fuel c s len nw; get s <- r; Ret (Ok (inl s))
      else Ret (if strict then No else Err)
    end
  end.

(** list_c.c:410-417 and 442-448 *)
Definition length_var (fuel : nat) (c : cfg) (s : hst) (l nw : word) (len : Z) : outcome res :=
  do r <- get_nil fuel c s l;
  do x <- (get s <- r; Get_Integer fuel c s len nw);
  Ret (x, Some (Chp s l nw (INT len))).

(** list_c.c:307-418 Pl_Length_2 *)
Definition Length_2 (k fuel : nat) (c : cfg) (strict : bool) (s : hst) (l nw : word) : outcome res :=
  do nw <- deref fuel (mm (hm s)) nw;
  match (match nw with
         | INT n => if n <? 0 then None else Some n
         | REF _ => Some (-1)
         | _ => None
         end) with
  | None => Ret (Err, None)
  | Some n =>
    do r <- length_walk k fuel c strict s l nw n 0;
    match r with
    | Ok (inl s) => Ret (Ok s, None)
    | Ok (inr (l, len)) => length_var fuel c s l nw len
    | No => Ret (No, None) | Fatal => Ret (Fatal, None) | Fd => Ret (Fd, None) | Err => Ret (Err, None)
    end
  end.

(** list_c.c:427-449 Pl_Length_Alt_0 *)
Definition Length_Alt_0 (fuel : nat) (c : cfg) (b : chp) : outcome res :=
  match c_2 b with
  | INT len =>
    do r <- open_list false fuel c (c_s b) (c_0 b);
    match r with
    | Ok (_, l, s) => length_var fuel c s l (c_1 b) (len + 1)
    | No => Ret (No, None) | Fatal => Ret (Fatal, None) | Fd => Ret (Fd, None) | Err => Ret (Err, None)
    end
  | _ => UB
  end.

(** ** nth0/3, nth1/3 *)

(** list_c.c:458-479 Pl_Nth0_3; [n] is the integer read minus the base *)
Fixpoint nth_walk (n : nat) (fuel : nat) (c : cfg) (s : hst) (l x : word) : outcome (lres hst) :=
  do r <- open_list true fuel c s l;
  get (e, l, s) <- r;
  match n with
  | O => unify fuel c s e x
  | S n => nth_walk n fuel c s l x
  end.
Definition Nth0_3 (fuel : nat) (c : cfg) (s : hst) (i : Z) (l x : word) (base : Z) : outcome (lres hst) :=
  if i - base <? 0 then Ret No else nth_walk (Z.to_nat (i - base)) fuel c s l x.

(** ** reverse/2 *)

(** list_c.c:496-509 *)
Fixpoint reverse_walk (k fuel : nat) (c : cfg) (s : hst) (l1 acc : word) (len : Z)
  : outcome (lres (word * word * word * Z * hst)) :=
  match k with
  | O => NoFuel
  | S k =>
    do w <- deref fuel (mm (hm s)) l1;
    match w with
    | LST a =>
      do x <- rd_word (mm (hm s)) a;
      do r <- cons_cell c s x acc;
      get (acc, s) <- r;
      do len <- incr len;
      do l1 <- rd_word (mm (hm s)) (a + 1);
      reverse_walk k fuel c s l1 acc len
    | w => Ret (Ok (w, l1, acc, len, s))
    end
  end.

(** list_c.c:524-536: [n] fresh elements are added *)
Fixpoint reverse_more (n : nat) (fuel : nat) (c : cfg) (s : hst) (l1 acc : word)
  : outcome (lres (word * word * hst)) :=
  match n with
  | O => Ret (Ok (l1, acc, s))
  | S n =>
    do r <- open_list false fuel c s l1;
    get (x, l1, s) <- r;
    do r <- cons_cell c s x acc;
    get (acc, s) <- r;
    reverse_more n fuel c s l1 acc
  end.

(** list_c.c:546-547 and 577-578 *)
Definition reverse_end (fuel : nat) (c : cfg) (s : hst) (l1 acc l2 : word) : outcome (lres hst) :=
  do r <- get_nil fuel c s l1;
  get s <- r;
  unify fuel c s acc l2.

(** list_c.c:487-548 Pl_Reverse_2 *)
Definition Reverse_2 (k fuel : nat) (c : cfg) (s : hst) (l1 l2 : word) : outcome res :=
  do r <- reverse_walk k fuel c s l1 (ATM nil) 0;
  match r with
  | Ok (w, l1, acc, len1, s) =>
    match w with
    | ATM i => if i =? nil then det (unify fuel c s acc l2) else Ret (No, None)
    | REF _ =>
      do len2 <- List_Length k fuel (mm (hm s)) 0 l2;
      if 0 <=? len2 then
        if len2 <? len1 then Ret (No, None)
        else det (do r <- reverse_more (Z.to_nat (len2 - len1)) fuel c s l1 acc;
                  get (l1, acc, s) <- r;
                  reverse_end fuel c s l1 acc l2)
      else do x <- reverse_end fuel c s l1 acc l2; Ret (x, Some (Chp s l1 l2 acc))
    | _ => Ret (No, None)
    end
  | No => Ret (No, None) | Fatal => Ret (Fatal, None) | Fd => Ret (Fd, None) | Err => Ret (Err, None)
  end.

(** list_c.c:556-579 Pl_Reverse_Alt_0 *)
Definition Reverse_Alt_0 (fuel : nat) (c : cfg) (b : chp) : outcome res :=
  do r <- open_list false fuel c (c_s b) (c_0 b);
  match r with
  | Ok (x, l1, s) =>
    do r <- cons_cell c s x (c_2 b);
    match r with
    | Ok (acc, s) =>
      do x <- reverse_end fuel c s l1 acc (c_1 b); Ret (x, Some (Chp s l1 (c_1 b) acc))
    | No => Ret (No, None) | Fatal => Ret (Fatal, None) | Fd => Ret (Fd, None) | Err => Ret (Err, None)
    end
  | No => Ret (No, None) | Fatal => Ret (Fatal, None) | Fd => Ret (Fd, None) | Err => Ret (Err, None)
  end.

(** ** backtracking: the answers of a predicate, at most [n] alternatives; the boolean
    tells whether a choice point is left.  An error leaves the predicate. *)
Fixpoint explore (alt : chp -> outcome res) (n : nat) (r : res) : outcome (list (lres hst) * bool) :=
  match r with
  | (Ok _, Some b) | (No, Some b) =>
    match n with
    | O => Ret ([fst r], true)
    | S n => do r' <- alt b; do x <- explore alt n r'; Ret (fst r :: fst x, snd x)
    end
  | _ => Ret ([fst r], false)
  end.
End Lists.
