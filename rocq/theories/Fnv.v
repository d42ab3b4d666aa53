(* Model of hash_fnv1a and hash64_fnv1a (include/bss-util/bss_util.h:1009-1015).  A string is the list of its
   bytes before the terminator, each 1..255; char is signed, as on the x86 compilers the library is built
   with. *)
From Coq Require Import ZArith List.
From Verif Require Import Common.
Import ListNotations.
Local Open Scope Z_scope.

(** bss_util.h:1010: one step; uint32_t(str[0]) extends the sign of the char *)
Definition fnv32_step (value c : Z) : Z := wrap 32 (wrap 64 (Z.lxor value (wrap 32 (sgn 8 c)) * 0x1000193)).
(** bss_util.h:1009-1011 [hash_fnv1a] *)
Fixpoint hash_fnv1a_from (str : list Z) (value : Z) : Z :=
  match str with [] => value | c :: t => hash_fnv1a_from t (fnv32_step value c) end.
Definition hash_fnv1a (str : list Z) : Z := hash_fnv1a_from str 0x811c9dc5.

(** bss_util.h:1014: one step; the product is converted to uint32_t *)
Definition fnv64_step (value c : Z) : Z := wrap 32 (wrap 64 (Z.lxor value (wrap 64 (sgn 8 c)) * 0x100000001b3)).
(** bss_util.h:1013-1015 [hash64_fnv1a] *)
Fixpoint hash64_fnv1a_from (str : list Z) (value : Z) : Z :=
  match str with [] => value | c :: t => hash64_fnv1a_from t (fnv64_step value c) end.
Definition hash64_fnv1a (str : list Z) : Z := hash64_fnv1a_from str 0xcbf29ce484222325.
