(** Machine words and tags (64-bit configuration).

    Sources: /repo/src/EnginePl/pl_config.c:870-1134 (Generate_Tags prints the
    macros), /repo/src/EnginePl/wam_archi.def:90-103 (tag values),
    /repo/src/EnginePl/wam_inst.h:106-153.

    A machine word is a [Z] in [0, 2^64); a C [PlLong] is a [Z] in
    [-2^63, 2^63).  [u64]/[s64] are the C casts (PlULong) and (PlLong). *)
Require Import ZArith Bool.
Open Scope Z_scope.

(** WORD_SIZE = 64; wam_archi.def has 7 tags with maximal value 7, hence
    tag_size = 3 (pl_config.c:953-954), tag_size_low = 3 (pl_config.c:960),
    tag_size_high = 0 and value_size = 61 (pl_config.c:963-964). *)
Definition WORD_SIZE : Z := 64.
Definition TAG_SIZE : Z := 3.
Definition VALUE_SIZE : Z := 61.
Definition W64 : Z := 2 ^ 64.

Definition u64 (z : Z) : Z := z mod W64.
Definition s64 (z : Z) : Z := (z + 2 ^ 63) mod W64 - 2 ^ 63.

(** wam_archi.def:92-101 *)
Definition TAG_REF : Z := 0.
Definition TAG_LST : Z := 1.
Definition TAG_STC : Z := 2.
Definition TAG_ATM : Z := 3.
Definition TAG_FLT : Z := 4.
Definition TAG_FDV : Z := 5.
Definition TAG_INT : Z := 7.
Definition TAG_MASK : Z := 7.

(** pl_config.c:981  Tag_Mask_Of(w) = (PlULong)(w) & TAG_MASK *)
Definition Tag_Mask_Of (w : Z) : Z := Z.land (u64 w) TAG_MASK.

(** pl_config.c:1049  Tag_INT(v) = ((PlULong)(v) << 3) | TAG_MASK *)
Definition Tag_INT_ (v : Z) : Z := Z.lor (u64 (Z.shiftl (u64 v) 3)) TAG_MASK.

(** pl_config.c:1025  UnTag_Long_Int(w) = ((PlLong)((PlULong)(w) << 0)) >> 3
    (arithmetic right shift, as gcc does) *)
Definition UnTag_INT_ (w : Z) : Z := Z.shiftr (s64 (u64 w)) 3.

(** pl_config.c:1016  Tag_Short_Uns(tm, v) = ((PlULong)(v) << 3) + tm *)
Definition Tag_ATM_ (v : Z) : Z := u64 (u64 (Z.shiftl (u64 v) 3) + TAG_ATM).

(** pl_config.c:1077 UnTag of a short_uns whose tag value is <= 3:
    (int)((PlULong)(w) >> 3); the cast to int keeps the low 32 bits, signed *)
Definition s32 (z : Z) : Z := (z + 2 ^ 31) mod 2 ^ 32 - 2 ^ 31.
Definition UnTag_ATM_ (w : Z) : Z := s32 (Z.shiftr (u64 w) 3).

(** pl_config.c:1022  Tag_Address(tm, v) = (PlULong)(v) + tm *)
Definition Tag_Address (tm v : Z) : Z := u64 (u64 v + tm).

(** pl_config.c:1030, 979  UnTag_Address(w) = (PlULong)(w) & VALUE_MASK,
    VALUE_MASK = ~TAG_MASK *)
Definition UnTag_Address (w : Z) : Z := Z.ldiff (u64 w) TAG_MASK.

(** pl_config.c:1095 Tag_Is_INT(w) *)
Definition Tag_Is_INT (w : Z) : bool := Tag_Mask_Of w =? TAG_INT.
Definition Tag_Is_FLT (w : Z) : bool := Tag_Mask_Of w =? TAG_FLT.

(** wam_inst.h:150-153 *)
Definition INT_GREATEST_VALUE : Z := Z.shiftl 1 (WORD_SIZE - TAG_SIZE - 1) - 1.
Definition INT_LOWEST_VALUE : Z := - INT_GREATEST_VALUE - 1.
Definition TEST_INT_OVERFLOW (x : Z) : bool :=
  (x <? INT_LOWEST_VALUE) || (INT_GREATEST_VALUE <? x).

(** wam_inst.h:116-120 *)
Definition ATOM_MAX_BITS : Z := 8 * 8 - 10.
Definition Functor_Arity (f n : Z) : Z := Z.lor (u64 (Z.shiftl (u64 n) ATOM_MAX_BITS)) f.
Definition Functor_Of (w : Z) : Z := s32 (Z.land (u64 w) (Z.shiftl 1 ATOM_MAX_BITS - 1)).
Definition Arity_Of (w : Z) : Z := s32 (Z.shiftr (u64 w) ATOM_MAX_BITS).
