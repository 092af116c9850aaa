(** Symbol mangling, /repo/src/TopComp/mangling.c.

    A C string is the list of its bytes (1..255) without the final '\0'; reading past the
    end gives the final '\0' as 0.  Output buffers are unbounded here. *)
Require Import ZArith List Bool.
Import ListNotations.
Open Scope Z_scope.

Definition str := list Z.
Definition US : Z := 95. (* '_' *)

(** ctype.h, C locale *)
Definition isdigit (c : Z) : bool := (48 <=? c) && (c <=? 57).
(** mangling.c:103-108 *)
Definition Letter (c : Z) : bool := (97 <=? c) && (c <=? 122) || (65 <=? c) && (c <=? 90).
Definition Letter_Digit (c : Z) : bool := Letter c || isdigit c.
Definition Hexa_Digit (c : Z) : bool := isdigit c || (65 <=? c) && (c <=? 70).
Definition Hex_Num (c : Z) : Z := if isdigit c then c - 48 else c - 65 + 10.
(** ctype.h isalnum in the C locale *)
Definition isalnum (c : Z) : bool := Letter_Digit c.

(** the loop of String_Needs_Encoding, mangling.c:246-262; [prev] is str[-1] *)
Fixpoint needs_loop (prev : Z) (s : str) : bool :=
  match s with
  | [] => false
  | c :: s' =>
    if c =? US then
      if (prev =? US) || match s' with [] => true | _ => false end then true else needs_loop c s'
    else if negb (Letter_Digit c) then true else needs_loop c s'
  end.
Definition String_Needs_Encoding (s : str) : bool :=
  match s with [] => true | c :: s' => if negb (Letter_Digit c) then true else needs_loop c s' end.

(** sprintf "%02X" of a byte *)
Definition hexd (v : Z) : Z := if v <? 10 then 48 + v else 55 + v.
Definition hex2 (c : Z) : str := [hexd (c / 16); hexd (c mod 16)].
(** mangling.c:274-285 *)
Definition Encode_String (s : str) : str := flat_map hex2 s.

(** sprintf "%d" of a number >= 0, least digit last *)
Fixpoint dec_aux (fuel : nat) (n : Z) (acc : str) : str :=
  match fuel with
  | O => acc
  | S f => let acc := 48 + n mod 10 :: acc in if n <? 10 then acc else dec_aux f (n / 10) acc
  end.
Definition dec (n : Z) : str := dec_aux (S (Z.to_nat n)) n [].

(** mangling.c:130-158; no module: NULL or the empty string *)
Definition Mangle (module : option str) (pred : str) (arity : Z) : str :=
  let module := match module with Some (c :: s) => Some (c :: s) | _ => None end in
  let module_encode := match module with None => 0 | Some m => if String_Needs_Encoding m then 2 else 1 end in
  let pred_encode := if String_Needs_Encoding pred then 1 else 0 in
  [88; 48 + (2 * module_encode + pred_encode); US] ++
  match module with
  | None => []
  | Some m => (if module_encode =? 1 then m else Encode_String m) ++ [US; US]
  end ++
  (if pred_encode =? 0 then pred else Encode_String pred) ++
  (if 0 <=? arity then [US; US; 97] ++ dec arity else []).

(** mangling.c:478-508 the loop of Copy_Not_Encoded_String: what is copied, what remains *)
Fixpoint copy_loop (prev : Z) (s : str) (acc : str) : str * str :=
  match s with
  | [] => (acc, [])
  | c :: s' =>
    if c =? US then
      if (prev =? US) || match s' with [] => true | _ => false end
      then (removelast acc, prev :: s)             (* str--; buff-- *)
      else copy_loop c s' (acc ++ [c])
    else if negb (Letter_Digit c) then (acc, s)
    else copy_loop c s' (acc ++ [c])
  end.
Definition Copy_Not_Encoded_String (s : str) : option (str * str) :=
  match s with
  | [] => None
  | c :: s' => if negb (Letter_Digit c) then None else Some (copy_loop c s' [c])
  end.

(** mangling.c:519-531 *)
Fixpoint Decode_String (s : str) (acc : str) : str * str :=
  match s with
  | a :: ((b :: s') as s1) =>
    if Hexa_Digit a && Hexa_Digit b then Decode_String s' (acc ++ [Hex_Num a * 16 + Hex_Num b])
    else (acc, s)
  | s => (acc, s)
  end.

(** strtoul(_, &p, 10) on a string that does not start with a space or a sign: value
    and rest (values are far from ULONG_MAX in what follows) *)
Fixpoint strtoul (s : str) (n : Z) : Z * str :=
  match s with
  | c :: s' => if isdigit c then strtoul s' (n * 10 + (c - 48)) else (n, s)
  | [] => (n, [])
  end.

(** mangling.c:307-391 with quote = FALSE and decode_aux = 0.  [kmax] is the character
    that *str is compared with (line 317: '5') and [empty_ok] tells whether an empty
    predicate is accepted (line 347: no), [amax] is the greatest arity accepted (1024).  Result: module ([] if none), predicate,
    arity, rest. *)
Definition Demangle_gen (kmax amax : Z) (empty_ok strict : bool) (s : str) : option (str * str * Z * str) :=
  match s with
  | x :: k :: u :: s =>
    if negb (x =? 88) || (k <? 48) || (kmax <=? k) then None
    else if negb (u =? US) then None
    else
      let n := k - 48 in
      let module_encode := n / 2 in
      let pred_encode := n mod 2 in
      match
        (if module_encode =? 0 then Some ([], s)
         else match (if module_encode =? 1 then Copy_Not_Encoded_String s else Some (Decode_String s [])) with
              | Some (m, a :: b :: s) => if (a =? US) && (b =? US) then Some (m, s) else None
              | _ => None
              end)
      with
      | None => None
      | Some (m, s) =>
        match (if pred_encode =? 0 then Copy_Not_Encoded_String s else Some (Decode_String s [])) with
        | None => None
        | Some (p, s) =>
          if negb empty_ok && match p with [] => true | _ => false end then None
          else
            let '(arity, s) :=
              match s with
              | a :: b :: c :: s' =>
                if (a =? US) && (b =? US) && (c =? 97) then
                  let '(v, r) := strtoul s' 0 in
                  (match s' with
                   | d :: _ => if isdigit d then v else -1
                   | [] => -1
                   end, r)
                else (-1, s)
              | _ => (-1, s)
              end in
            let bad := (arity <? 0) || (amax <? arity) ||
                       match s with c :: _ => isalnum c || (c =? US) | [] => false end in
            if bad then if strict then None else Some (m, p, -1, s)
            else Some (m, p, arity, s)
        end
      end
  | _ => None
  end.
Definition Demangle : bool -> str -> option (str * str * Z * str) := Demangle_gen 53 1024 false.
