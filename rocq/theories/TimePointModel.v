(** Model of timed scheduling in terms of the other operation, and of the time points of the Windows pool:
    - exec::schedule_after for a scheduler that only has schedule_at: /repo/include/exec/timed_scheduler.hpp L236-254;
    - exec::schedule_at for a scheduler that only has schedule_after: L318-334;
    - exec::__win32::filetime_clock: /repo/include/exec/windows/filetime_clock.hpp L26-161.
    Time is a number of ticks of the real time line; a clock is a function from real time to readings (a steady clock is off by a constant, L33 says filetime_clock is not steady).
    Simplified: the scheduler's own operation is any that meets its contract (spec below in TimePointProperties.v); the completion is a value completion (stopping and errors pass through let_value, which SenderModel covers);
    durations are 64-bit signed counts (std::int64_t, L29), where an operation that does not fit is undefined behaviour (None). *)
From Coq Require Import List ZArith Bool.
Import ListNotations.
Set Implicit Arguments.
Open Scope Z_scope.

Definition fits (x : Z) : bool := (- 2 ^ 63 <=? x) && (x <? 2 ^ 63).
Definition chk (x : Z) : option Z := if fits x then Some x else None.

(** ** The adapted operations.
    A use of an operation: it is started at real time u_start; the clock is read at u_read; the native operation is started at u_call; it completes at u_done. *)
Record use := mku { u_start : Z; u_read : Z; u_call : Z; u_done : Z }.

(** What the native operation is asked for: a time point or a duration. *)
Inductive ask := AskAt (tp : Z) | AskAfter (d : Z).

(** L249-253: let_value(just(), [] { return schedule_at(sched, now(sched) + duration); }), when the result is started *)
Definition after_by_at (clock : Z -> Z) (d : Z) (u : use) : option ask :=
  match chk (clock (u_read u) + d) with Some t => Some (AskAt t) | None => None end.
(** L330-333: schedule_after(sched, time_point - now(sched)) *)
Definition at_by_after (clock : Z -> Z) (tp : Z) (u : use) : option ask :=
  match chk (tp - clock (u_read u)) with Some d => Some (AskAfter d) | None => None end.

(** ** filetime_clock: ticks of 100ns in a std::uint64_t (L147) *)
Definition wrap (x : Z) : Z := x mod 2 ^ 64.
(** conversion of a std::uint64_t to std::int64_t *)
Definition signed (x : Z) : Z := if x <? 2 ^ 63 then x else x - 2 ^ 64.
(** A duration<Rep, Ratio>: a count of units of num/den ticks. duration_cast<duration>(d).count(): L74, L81; it rounds towards zero *)
Record dur := mkd { cnt : Z; num : Z; den : Z }.
Definition cast (d : dur) : option Z := match chk (cnt d * num d) with Some x => Some (Z.quot x (den d)) | None => None end.
(** L71-76, L99-105: the count is converted to std::uint64_t *)
Definition plus (t : Z) (d : dur) : option Z := match cast d with Some c => Some (wrap (t + wrap c)) | None => None end.
(** L78-83, L90-97 *)
Definition minus (t : Z) (d : dur) : option Z := match cast d with Some c => Some (wrap (t - wrap c)) | None => None end.
(** L85-88: duration{a.ticks_} - duration{b.ticks_} *)
Definition diff (a b : Z) : option Z := chk (signed a - signed b).
(** L52-57, L59-62 *)
Definition tpmax : Z := 2 ^ 63 - 1.
Definition tpmin : Z := 0.
(** L64-69: any value of a std::uint64_t *)
Definition from_ticks (x : Z) : Z := wrap x.
(** L115-143 *)
Definition lt (a b : Z) : bool := a <? b.
Definition eq (a b : Z) : bool := a =? b.
(** L150-160: the two halves of a FILETIME *)
Definition now (high low : Z) : Z := from_ticks (high * 2 ^ 32 + low).
