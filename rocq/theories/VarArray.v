(* Model of VARARRAY and internal::VariableArray (include/bss-util/Array.h:446-501): an array in the frame of the caller, or on the heap if it is large.  Sizes are words of 64 bits;
   a pointer to an element is its index; an element is raw or live.  Taking at most 65535 bytes from the stack is assumed to succeed, and the macro is given a number and not an
   expression with effects (it evaluates it two or three times). *)
From Coq Require Import List ZArith Bool.
From Verif Require Import Common.
Open Scope Z_scope.

(** a size_t *)
Definition word (x : Z) : Z := x mod 2 ^ 64.
(** memory from ALLOCA or malloc, with the elements that live in it *)
Record block := Blk { bytes : Z; on_heap : bool; live : Z -> bool }.
(** Array.h:495-496: _p (null if there is no block) and _heap *)
Record varr := VA { _p : option block; _heap : Z }.
(** Array.h:449-450 *)
Definition HEAPFLAG : Z := 2 ^ 63.
Definition HEAPMASK : Z := 2 ^ 63 - 1.

Section VarArray.
  (** sizeof(T); whether T is trivially default constructible and trivially destructible; whether malloc succeeds *)
  Context (size : Z) (tc td mok : bool).
  Definition raw (n : Z) (h : bool) : block := Blk n h (fun _ => false).
  Definition set (b : block) (i : Z) (v : bool) : block := Blk (bytes b) (on_heap b) (fun x => if x =? i then v else live b x).

  (** Array.h:456-457: new(_p + i) T() for the k indices from i on; outside of the block it is UB *)
  Fixpoint construct (k : nat) (i : Z) (b : block) : res block :=
    match k with O => Ok b | S k => if (i + 1) * size <=? bytes b then construct k (i + 1) (set b i true) else UB end.
  (** Array.h:464-465: _p[i].~T() for the k indices from i on; the destructor of what is not live is UB *)
  Fixpoint destroy (k : nat) (i : Z) (b : block) : res block :=
    match k with O => Ok b | S k => if live b i then destroy k (i + 1) (set b i false) else UB end.

  (** Array.h:454-458: the constructor; p is the memory that was given *)
  Definition ctor (n : Z) (p : option block) : res varr :=
    let q := match p with Some b => Some b | None => if mok then Some (raw (word (n * size)) true) else None end in
    let h := Z.lor (match p with None => HEAPFLAG | Some _ => 0 end) (Z.land n HEAPMASK) in
    if tc then Ok (VA q h) else
    match q with
    | Some b => do b <- construct (Z.to_nat n) 0 b; Ok (VA (Some b) h)
    | None => if n =? 0 then Ok (VA None h) else UB
    end.
  (** Array.h:471 [Length] *)
  Definition Length (v : varr) : Z := Z.land (_heap v) HEAPMASK.
  (** Array.h:459-469: the destructor; the block that is left and whether it was given to free.  free of what malloc did not give is UB *)
  Definition dtor (v : varr) : res (option block * bool) :=
    do q <- (if td then Ok (_p v) else match _p v with Some b => do b <- destroy (Z.to_nat (Length v)) 0 b; Ok (Some b) | None => if Length v =? 0 then Ok None else UB end);
    if Z.land (_heap v) HEAPFLAG =? 0 then Ok (q, false) else match q with Some b => if on_heap b then Ok (q, true) else UB | None => Ok (q, true) end.
  (** Array.h:472-475: the indices of begin and end *)
  Definition begin_ (v : varr) : Z := 0.
  Definition end_ (v : varr) : Z := Length v.
  (** Array.h:501 [VARARRAY] *)
  Definition VARARRAY (n : Z) : res varr := ctor n (if 65535 <? word (n * size) then None else Some (raw (word (n * size)) false)).
End VarArray.
