(* Model of BlockAlloc (include/bss-util/BlockAlloc.h) and so of BlockPolicySize and BlockPolicy, which forward to it.
   Addresses and sizes are unbounded naturals.  Memory is modelled as far as the allocator reads it: the pointer stored in
   the W bytes at an address, if what is stored there is a pointer.  The list of chunks is a list (newest first): its links
   and sizes live in the headers of the chunks, outside the blocks.  The system allocator is an argument: it maps a number
   of bytes to an address, or None.  BSS_DEBUG and BSS_DISABLE_CUSTOM_ALLOCATORS are not defined; asserts are off. *)
From Coq Require Import List Arith Bool.
From Verif Require Import Common Dll Growth.
Import ListNotations.

(** sizeof(void * ) and sizeof(Node) (BlockAlloc.h 16-20) of the 64-bit build *)
Definition W : nat := 8.
Definition NODE : nat := 16.
(** Alloc.h 31: AlignSize without wrap-around (see C62 for the w-bit version) *)
Definition align_up (sz align : nat) : res nat :=
  match align with O => UB | _ => Ok ((sz / align + (if sz mod align =? 0 then 0 else 1)) * align) end.
(** BlockAlloc.h 146-150: the members; chunks are pairs of address and size *)
Record ba := mkba { mem : nat -> option ptr; chunks : list (nat * nat); freelist : ptr; sz : nat; align : nat; alignsize : nat }.
(** a pointer stored at p: what overlaps it is no pointer any more *)
Definition wr_ptr (m : nat -> option ptr) (p : nat) (v : ptr) : nat -> option ptr :=
  fun q => if q =? p then Some v else if (q <? p + W) && (p <? q + W) then None else m q.
(** BlockAlloc.h 139-143: the loop of _initChunk *)
Fixpoint init_loop (fuel sz : nat) (m : nat -> option ptr) (fl : ptr) (memref memend : nat) : res ((nat -> option ptr) * ptr) :=
  if memref <? memend then
    match fuel with
    | O => OutOfFuel
    | S fuel => init_loop fuel sz (wr_ptr m memref fl) (Some memref) (memref + sz) memend
    end
  else Ok (m, fl).
(** BlockAlloc.h 120-144: _allocChunk and _initChunk *)
Definition allocChunk (sys : nat -> option nat) (s : ba) (nsize : nat) : res ba :=
  match sys (alignsize s + nsize) with
  | None => Ok s
  | Some a =>
      do (m, fl) <- init_loop nsize (sz s) (mem s) (freelist s) (a + alignsize s) (a + alignsize s + nsize);
      Ok (mkba m ((a, nsize) :: chunks s) fl (sz s) (align s) (alignsize s))
  end.
(** BlockAlloc.h 27-32: the constructor; m is what memory holds *)
Definition new_ba (m : nat -> option ptr) (sys : nat -> option nat) (size init al : nat) : res ba :=
  do sz <- align_up size al;
  do asz <- align_up NODE al;
  allocChunk sys (mkba m [] None sz al asz) (init * sz).
(** BlockAlloc.h 57: the new chunk asked for by Alloc *)
Definition grow (sys : nat -> option nat) (s : ba) : res ba :=
  match chunks s with
  | [] => UB
  | (_, size) :: _ => match sz s with O => UB | _ => allocChunk sys s (fbnext_nat (size / sz s) * sz s) end
  end.
(** BlockAlloc.h 47-66: Alloc; the arguments bytes and align are only checked by asserts *)
Definition Alloc (sys : nat -> option nat) (s : ba) : res (ba * ptr) :=
  do s <- (match freelist s with Some _ => Ok s | None => grow sys s end);
  match freelist s with
  | None => Ok (s, None)
  | Some p => match mem s p with
              | None => UB
              | Some n => Ok (mkba (mem s) (chunks s) n (sz s) (align s) (alignsize s), Some p)
              end
  end.
(** BlockAlloc.h 67-78: Dealloc *)
Definition Dealloc (s : ba) (p : nat) : ba := mkba (wr_ptr (mem s) p (freelist s)) (chunks s) (Some p) (sz s) (align s) (alignsize s).
(** BlockAlloc.h 79-93: Clear *)
Definition Clear (sys : nat -> option nat) (s : ba) : res ba :=
  allocChunk sys (mkba (mem s) [] None (sz s) (align s) (alignsize s)) (fold_left (fun n c => n + snd c) (chunks s) 0).
