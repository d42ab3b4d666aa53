(* Model of bss-util/HighPrecisionTimer.cpp and include/bss-util/HighPrecisionTimer.h, the branches for POSIX.  double is replaced
   by exact rationals (Qc); the reading of the clock is an argument of each operation. *)
From Coq Require Import ZArith List Bool QArith Qcanon Qround.
From Verif Require Import Common Profiler.
Import ListNotations.
Local Open Scope Z_scope.

(** HighPrecisionTimer.h 91-95: the members *)
Record timer := mktimer { delta : Qc; time : Qc; curTime : Z; nsTime : Z; nsDelta : Z }.
(** HighPrecisionTimer.h 53: ResetTime *)
Definition ResetTime (s : timer) : timer := mktimer (delta s) (Qcz 0) (curTime s) 0 (nsDelta s).
(** HighPrecisionTimer.h 55-60: ResetDelta *)
Definition ResetDelta (now : Z) (s : timer) : timer := mktimer (Qcz 0) (time s) now (nsTime s) 0.
(** HighPrecisionTimer.cpp 16-19: the constructor *)
Definition timer_init (now : Z) : timer := ResetDelta now (mktimer (Qcz 0) (Qcz 0) 0 0 0).
(** HighPrecisionTimer.cpp 34-35, 54-55, 63-64, 71-72: adding nsDelta to the time *)
Definition advance (d : Qc) (now ns : Z) (s : timer) : timer :=
  let t := wrap 64 (nsTime s + ns) in mktimer d (Qcz t / Qcz 1000000)%Qc now t ns.
(** HighPrecisionTimer.cpp 21-37: Update *)
Definition Update (now : Z) (s : timer) : timer :=
  let now := if now <? curTime s then curTime s else now in
  advance (Qcz (wrap 64 (now - curTime s)) / Qcz 1000000)%Qc now (wrap 64 (now - curTime s)) s.
(** (uint64_t) of a double that is not negative *)
Definition to_uint64 (q : Qc) : Z := Qfloor (this q).
(** HighPrecisionTimer.cpp 39-57: Update(timewarp) *)
Definition UpdateWarp (timewarp : Qc) (now : Z) (s : timer) : timer :=
  if Qc_eq_dec timewarp (Qcz 1) then Update now s
  else
    let now := if now <? curTime s then curTime s else now in
    let dt := Qcz (wrap 64 (now - curTime s)) in
    advance (dt / (Qcz 1000000 * timewarp))%Qc now (to_uint64 (dt * timewarp)) s.
(** HighPrecisionTimer.cpp 58-65: Override(uint64_t) *)
Definition OverrideNS (ns : Z) (now : Z) (s : timer) : timer := advance (Qcz ns / Qcz 1000000)%Qc now ns s.
(** HighPrecisionTimer.cpp 66-73: Override(double) *)
Definition OverrideMS (d : Qc) (now : Z) (s : timer) : timer := advance d now (to_uint64 (d * Qcz 1000000)) s.
(** HighPrecisionTimer.h 64: NanosecondDiff *)
Definition NanosecondDiff (now old : Z) : Qc := (Qcz (wrap 64 (now - old)) / Qcz 1000000000)%Qc.

(** HighPrecisionTimer.h 38-60: the operations *)
Inductive top := TUpdate (now : Z) | TWarp (w : Qc) (now : Z) | TOverrideNS (ns now : Z) | TOverrideMS (d : Qc) (now : Z) | TResetTime | TResetDelta (now : Z).
Definition tstep (s : timer) (o : top) : timer :=
  match o with
  | TUpdate now => Update now s
  | TWarp w now => UpdateWarp w now s
  | TOverrideNS ns now => OverrideNS ns now s
  | TOverrideMS d now => OverrideMS d now s
  | TResetTime => ResetTime s
  | TResetDelta now => ResetDelta now s
  end.
Definition trun (now : Z) (l : list top) : timer := fold_left tstep l (timer_init now).
