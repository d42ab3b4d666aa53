(* Model of bss-util/ConvertUTF.c.  Units are integers; the source is the list of readable units,
   so a read past its end is UB.  [*target++ = x] appends x to the list of written units, so the
   length of that list is target - output.  ptrdiff_t is 64 bits wide; pointer comparisons are
   comparisons of offsets.  wchar_t is the 16-bit type the file assumes (UTF16 = unsigned short). *)
From Coq Require Import List ZArith Bool.
From Verif Require Import Common.
Import ListNotations.
Local Open Scope Z_scope.

(** PTRDIFF_MAX, ConvertUTF.c:119. *)
Definition PTRDIFF_MAX : Z := 2 ^ 63 - 1.
(** ConvertUTF.c:119, 256, 401: a negative length means "up to the terminator". *)
Definition limit (srclen : Z) : Z := if srclen <? 0 then PTRDIFF_MAX else srclen.

(** The counting loop of ConvertUTF.c:121-125, 258-271, 403-407: [w] gives the units needed by one
    element.  Returns the offset of [input] and the count. *)
Fixpoint scan (fuel : nat) (w : Z -> nat) (src : list Z) (lim : Z) (i buflen : nat) : res (nat * nat) :=
  match fuel with
  | O => OutOfFuel
  | S fuel' =>
      do c <- get src i;
      if negb (c =? 0) && (Z.of_nat i <? lim) then scan fuel' w src lim (S i) (buflen + w c)
      else Ok (i, buflen)
  end.

(** ConvertUTF.c:127, 273-274, 409: where the conversion stops. *)
Definition source_end (lim : Z) (i : nat) : nat := if Z.of_nat i <? lim then S i else Z.to_nat lim.

(** ConvertUTF.c:75-84 [trailingBytesForUTF8], as a function of the byte. *)
Definition trailingBytes (b : Z) : nat :=
  if b <? 0xC0 then 0%nat else if b <? 0xE0 then 1%nat else if b <? 0xF0 then 2%nat
  else if b <? 0xF8 then 3%nat else if b <? 0xFC then 4%nat else 5%nat.

(** ConvertUTF.c:91-92 [offsetsFromUTF8]. *)
Definition offsets : list Z := [0x00000000; 0x00003080; 0x000E2080; 0x03C82080; 0xFA082080; 0x82082080].

(** ConvertUTF.c:101 [firstByteMark]. *)
Definition firstByteMark (n : nat) : Z := nth n [0x00; 0x00; 0xC0; 0xE0; 0xF0; 0xF8; 0xFC] 0.

(** [(a = ( *--srcptr)) < 0x80 || a > 0xBF] of ConvertUTF.c:358-360. *)
Definition bad_trail (a : Z) : bool := (a <? 0x80) || (0xBF <? a).

(** ConvertUTF.c:350-376 [isLegalUTF8]; the bytes start at offset s. *)
Definition isLegalUTF8 (src : list Z) (s length : nat) : res bool :=
  do fb <- get src s;
  let tail := Ok (negb ((0x80 <=? fb) && (fb <? 0xC2)) && negb (0xF4 <? fb)) in
  let case2 (_ : unit) :=
    do a <- get src (s + 1);
    if bad_trail a then Ok false
    else if fb =? 0xE0 then (if a <? 0xA0 then Ok false else tail)
    else if fb =? 0xED then (if 0x9F <? a then Ok false else tail)
    else if fb =? 0xF0 then (if a <? 0x90 then Ok false else tail)
    else if fb =? 0xF4 then (if 0x8F <? a then Ok false else tail)
    else (if a <? 0x80 then Ok false else tail) in
  let case3 (_ : unit) :=
    do a <- get src (s + 2); if bad_trail a then Ok false else case2 tt in
  match length with
  | 4%nat => do a <- get src (s + 3); if bad_trail a then Ok false else case3 tt
  | 3%nat => case3 tt
  | 2%nat => case2 tt
  | 1%nat => tail
  | _ => Ok false
  end.

(** ConvertUTF.c:426-434, the fall-through switch: n extra bytes, 32-bit arithmetic. *)
Fixpoint gather (src : list Z) (s n : nat) (ch : Z) : res Z :=
  do b <- get src s;
  match n with
  | O => Ok (wrap 32 (ch + b))
  | S n' => gather src (S s) n' (wrap 32 (Z.shiftl (wrap 32 (ch + b)) 6))
  end.

(** ConvertUTF.c:444-468: what is stored for a decoded value. *)
Definition sanitize (ch : Z) : Z :=
  if ch <=? 0x10FFFF then
    if (0xD800 <=? ch) && (ch <=? 0xDFFF) then 0xFFFD else ch
  else 0xFFFD.

(** ConvertUTF.c:411-470, main loop of [UTF8toUTF32]. *)
Fixpoint u8to32_loop (fuel : nat) (src : list Z) (s e cap : nat) (out : list Z) : res (list Z) :=
  if (s <? e)%nat then
    match fuel with
    | O => OutOfFuel
    | S fuel' =>
        do fb <- get src s;
        let extra := trailingBytes fb in
        if (e - s <=? extra)%nat then Ok out
        else
          do legal <- isLegalUTF8 src s (extra + 1);
          if negb legal then Ok out
          else
            do ch <- gather src s extra 0;
            do off <- get offsets extra;
            let ch := wrap 32 (ch - off) in
            if (cap <=? length out)%nat then Ok out
            else u8to32_loop fuel' src (s + extra + 1) e cap (out ++ [sanitize ch])
    end
  else Ok out.

(** ConvertUTF.c:405: continuation bytes do not count. *)
Definition u8to32_weight (c : Z) : nat := if Z.land c 0xC0 =? 0x80 then 0%nat else 1%nat.

(** ConvertUTF.c:395-472 [UTF8toUTF32]; [output] is None for a null pointer, Some buflen otherwise.
    Yields the written units and the returned number. *)
Definition UTF8toUTF32 (src : list Z) (srclen : Z) (output : option nat) : res (list Z * nat) :=
  if srclen =? 0 then Ok ([], 0%nat) else
  let lim := limit srclen in
  do r <- scan (S (length src)) u8to32_weight src lim 0 1;
  match output with
  | None => Ok ([], snd r)
  | Some cap => do out <- u8to32_loop (S (length src)) src 0 (source_end lim (fst r)) cap []; Ok (out, length out)
  end.

(** ConvertUTF.c:260-269: bytes needed for one code point. *)
Definition u32to8_weight (c : Z) : nat :=
  if c <? 0x80 then 1%nat else if c <? 0x800 then 2%nat else if c <? 0x10000 then 3%nat
  else if c <=? 0x10FFFF then 4%nat else 3%nat.

(** [( *--target = (UTF8)((ch | byteMark) & byteMask)] of ConvertUTF.c:326-328. *)
Definition trail_byte (ch : Z) : Z := wrap 8 (Z.land (Z.lor ch 0x80) 0xBF).

(** ConvertUTF.c:324-330, the bytes stored for n bytes, most significant first. *)
Definition u8_bytes (n : nat) (ch : Z) : list Z :=
  match n with
  | 4%nat => [wrap 8 (Z.lor (Z.shiftr (Z.shiftr (Z.shiftr ch 6) 6) 6) (firstByteMark 4));
              trail_byte (Z.shiftr (Z.shiftr ch 6) 6); trail_byte (Z.shiftr ch 6); trail_byte ch]
  | 3%nat => [wrap 8 (Z.lor (Z.shiftr (Z.shiftr ch 6) 6) (firstByteMark 3)); trail_byte (Z.shiftr ch 6); trail_byte ch]
  | 2%nat => [wrap 8 (Z.lor (Z.shiftr ch 6) (firstByteMark 2)); trail_byte ch]
  | 1%nat => [wrap 8 (Z.lor ch (firstByteMark 1))]
  | _ => []
  end.

(** ConvertUTF.c:276-332, main loop of [UTF32toUTF8]. *)
Fixpoint u32to8_loop (fuel : nat) (src : list Z) (s e cap : nat) (out : list Z) : res (list Z) :=
  if (s <? e)%nat then
    match fuel with
    | O => OutOfFuel
    | S fuel' =>
        do ch <- get src s;
        let n := u32to8_weight ch in
        let ch := if ch <=? 0x10FFFF then ch else 0xFFFD in
        if (cap <? length out + n)%nat then Ok out
        else u32to8_loop fuel' src (S s) e cap (out ++ u8_bytes n ch)
    end
  else Ok out.

(** ConvertUTF.c:249-334 [UTF32toUTF8].  When no terminator is met within a negative limit,
    sourceEnd is source - 1 and nothing is converted (line 253 precedes 256); scanning that far
    is impossible in a real address space and is not distinguished here. *)
Definition UTF32toUTF8 (src : list Z) (srclen : Z) (output : option nat) : res (list Z * nat) :=
  if srclen =? 0 then Ok ([], 0%nat) else
  let lim := limit srclen in
  do r <- scan (S (length src)) u32to8_weight src lim 0 1;
  match output with
  | None => Ok ([], snd r)
  | Some cap => do out <- u32to8_loop (S (length src)) src 0 (source_end lim (fst r)) cap []; Ok (out, length out)
  end.

(** ConvertUTF.c:123: units needed for one code point. *)
Definition u32to16_weight (c : Z) : nat := if 0xFFFF <? c then 2%nat else 1%nat.

(** ConvertUTF.c:129-181, main loop of [UTF32toUTF16]. *)
Fixpoint u32to16_loop (fuel : nat) (src : list Z) (s e cap : nat) (out : list Z) : res (list Z) :=
  if (s <? e)%nat then
    match fuel with
    | O => OutOfFuel
    | S fuel' =>
        if (cap <=? length out)%nat then Ok out
        else
          do ch <- get src s;
          if ch <=? 0xFFFF then
            u32to16_loop fuel' src (S s) e cap
              (out ++ [if (0xD800 <=? ch) && (ch <=? 0xDFFF) then 0xFFFD else wrap 16 ch])
          else if 0x10FFFF <? ch then u32to16_loop fuel' src (S s) e cap (out ++ [0xFFFD])
          else if (cap <=? length out + 1)%nat then Ok out
          else
            let ch := ch - 0x10000 in
            u32to16_loop fuel' src (S s) e cap
              (out ++ [wrap 16 (Z.shiftr ch 10 + 0xD800); wrap 16 (Z.land ch 0x3FF + 0xDC00)])
    end
  else Ok out.

(** ConvertUTF.c:113-183 [UTF32toUTF16]. *)
Definition UTF32toUTF16 (src : list Z) (srclen : Z) (output : option nat) : res (list Z * nat) :=
  if srclen =? 0 then Ok ([], 0%nat) else
  let lim := limit srclen in
  do r <- scan (S (length src)) u32to16_weight src lim 0 1;
  match output with
  | None => Ok ([], snd r)
  | Some cap => do out <- u32to16_loop (S (length src)) src 0 (source_end lim (fst r)) cap []; Ok (out, length out)
  end.

(** wcslen (C library). *)
Fixpoint wcslen_from (fuel : nat) (src : list Z) (i : nat) : res nat :=
  match fuel with
  | O => OutOfFuel
  | S fuel' => do c <- get src i; if c =? 0 then Ok i else wcslen_from fuel' src (S i)
  end.

(** ConvertUTF.c:196-243, main loop of [UTF16toUTF32]. *)
Fixpoint u16to32_loop (fuel : nat) (src : list Z) (s e cap : nat) (out : list Z) : res (list Z) :=
  if (s <? e)%nat then
    match fuel with
    | O => OutOfFuel
    | S fuel' =>
        do ch <- get src s;
        let emit (s' : nat) (ch : Z) :=
          if (cap <=? length out)%nat then Ok out else u16to32_loop fuel' src s' e cap (out ++ [ch]) in
        if (0xD800 <=? ch) && (ch <=? 0xDBFF) then
          if (S s <? e)%nat then
            do ch2 <- get src (S s);
            if (0xDC00 <=? ch2) && (ch2 <=? 0xDFFF) then
              emit (S (S s)) (wrap 32 (Z.shiftl (ch - 0xD800) 10 + (ch2 - 0xDC00) + 0x10000))
            else emit (S s) ch
          else Ok out
        else emit (S s) ch
    end
  else Ok out.

(** ConvertUTF.c:185-245 [UTF16toUTF32]. *)
Definition UTF16toUTF32 (src : list Z) (srclen : Z) (output : option nat) : res (list Z * nat) :=
  if srclen =? 0 then Ok ([], 0%nat) else
  do len <- (if srclen <? 0 then do l <- wcslen_from (S (length src)) src 0; Ok (l + 1)%nat else Ok (Z.to_nat srclen));
  match output with
  | None => Ok ([], len)
  | Some cap => do out <- u16to32_loop (S (length src)) src 0 len cap []; Ok (out, length out)
  end.
