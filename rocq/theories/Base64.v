(* Model of Base64Encode and Base64Decode, include/bss-util/algo.h:605-696.
   Characters and bytes are integers; [out[c++] = x] appends x to the output, so the
   length of the output list is the cursor c (the caller supplies a buffer of at least
   the announced size; that the number of writes equals that size is proved). *)
From Coq Require Import List ZArith Bool.
From Verif Require Import Common.
Import ListNotations.
Local Open Scope Z_scope.

(** algo.h:636, the 64 characters of [code] (ASCII). *)
Definition code : list Z :=
  [65;66;67;68;69;70;71;72;73;74;75;76;77;78;79;80;81;82;83;84;85;86;87;88;89;90;
   97;98;99;100;101;102;103;104;105;106;107;108;109;110;111;112;113;114;115;116;117;118;119;120;121;122;
   48;49;50;51;52;53;54;55;56;57;45;95].

(** Table read [t[i]] with an integer index: out of bounds is undefined (C++ rule). *)
Definition getz (t : list Z) (i : Z) : res Z :=
  if i <? 0 then UB else get t (Z.to_nat i).

(** algo.h:607, the announced number of characters. *)
Definition enc_size (cnt : nat) : nat :=
  (Nat.div cnt 3 * 4 + Nat.modulo cnt 3 + (if Nat.eqb (Nat.modulo cnt 3) 0 then 0 else 1))%nat.

(** algo.h:641-651, the loop over full groups; k groups remain, i is the index. *)
Fixpoint enc_loop (src : list Z) (k i : nat) (out : list Z) : res (list Z) :=
  match k with
  | O => Ok out
  | S k' =>
      do s0 <- get src (i + 0)%nat;
      do o0 <- getz code (Z.shiftr (Z.land s0 252) 2);
      do s1 <- get src (i + 1)%nat;
      do o1 <- getz code (Z.lor (Z.shiftl (Z.land s0 3) 4) (Z.shiftr (Z.land s1 240) 4));
      do s2 <- get src (i + 2)%nat;
      do o2 <- getz code (Z.lor (Z.shiftl (Z.land s1 15) 2) (Z.shiftr (Z.land s2 192) 6));
      do o3 <- getz code (Z.land s2 63);
      enc_loop src k' (i + 3) (out ++ [o0; o1; o2; o3])
  end.

(** algo.h:637-666, [Base64Encode] with a non-null output. *)
Definition Base64Encode (src : list Z) (cnt : nat) : res (list Z) :=
  let s := (cnt - Nat.modulo cnt 3)%nat in
  do out <- enc_loop src (Nat.div cnt 3) 0 [];
  let i := s in
  if (i <? cnt)%nat then
    do s0 <- get src i;
    do o0 <- getz code (Z.shiftr (Z.land s0 252) 2);
    if (cnt <=? i + 1)%nat then
      do o1 <- getz code (Z.shiftl (Z.land s0 3) 4);
      Ok (out ++ [o0; o1])
    else
      do s1 <- get src (i + 1)%nat;
      do o1 <- getz code (Z.lor (Z.shiftl (Z.land s0 3) 4) (Z.shiftr (Z.land s1 240) 4));
      do o2 <- getz code (Z.shiftl (Z.land s1 15) 2);
      Ok (out ++ [o0; o1; o2])
  else Ok out.

(** algo.h:679-681, the 78-entry [map]. *)
Definition dmap : list Z :=
  [62;0;0;52;53;54;55;56;57;58;59;60;61;0;0;0;0;0;0;0;
   0;1;2;3;4;5;6;7;8;9;10;11;12;13;14;15;16;17;18;19;20;21;22;23;24;25;0;0;0;0;63;0;
   26;27;28;29;30;31;32;33;34;35;36;37;38;39;40;41;42;43;44;45;46;47;48;49;50;51].

(** [map[src[i] - '-']] of algo.h:686-694 ('-' is 45). *)
Definition dlook (src : list Z) (i : nat) : res Z :=
  do ch <- get src i;
  getz dmap (ch - 45).

(** algo.h:673, the announced number of bytes. *)
Definition dec_size (cnt : nat) : nat :=
  if Nat.eqb (Nat.modulo cnt 4) 1 then 0%nat else
  (Nat.div cnt 4 * 3 + Nat.modulo cnt 4 - (if Nat.eqb (Nat.modulo cnt 4) 0 then 0 else 1))%nat.

(** algo.h:684-689, the loop over full groups; stores truncate to uint8_t. *)
Fixpoint dec_loop (src : list Z) (k i : nat) (out : list Z) : res (list Z) :=
  match k with
  | O => Ok out
  | S k' =>
      do m0 <- dlook src (i + 0)%nat;
      do m1 <- dlook src (i + 1)%nat;
      do m2 <- dlook src (i + 2)%nat;
      do m3 <- dlook src (i + 3)%nat;
      let o0 := wrap 8 (Z.lor (Z.shiftl m0 2) (Z.shiftr m1 4)) in
      let o1 := wrap 8 (Z.lor (Z.shiftl m1 4) (Z.shiftr m2 2)) in
      let o2 := wrap 8 (Z.lor (Z.shiftl m2 6) m3) in
      dec_loop src k' (i + 4) (out ++ [o0; o1; o2])
  end.

(** algo.h:668-696, [Base64Decode] with a non-null output. *)
Definition Base64Decode (src : list Z) (cnt : nat) : res (list Z) :=
  if Nat.eqb (Nat.modulo cnt 4) 1 then Ok [] else
  let s := (Nat.div cnt 4 * 4)%nat in
  do out <- dec_loop src (Nat.div cnt 4) 0 [];
  let i := S s in
  do out <-
    (if (i <? cnt)%nat then
       do m0 <- dlook src (i - 1)%nat;
       do m1 <- dlook src i;
       Ok (out ++ [wrap 8 (Z.lor (Z.shiftl m0 2) (Z.shiftr m1 4))])
     else Ok out);
  let i := S i in
  if (i <? cnt)%nat then
    do m0 <- dlook src (i - 1)%nat;
    do m1 <- dlook src i;
    Ok (out ++ [wrap 8 (Z.lor (Z.shiftl m0 4) (Z.shiftr m1 2))])
  else Ok out.
