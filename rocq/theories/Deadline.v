(** Model: how a timeout becomes a deadline on the steady clock: detail::convert() (include/boost/fiber/detail/convert.hpp:25-35) and the expression steady_clock::now() + timeout_duration (operations.hpp:48, timed_mutex.hpp:68, recursive_timed_mutex.hpp:74, condition_variable.hpp:133, 139, buffered_channel.hpp:194, 201, 327, unbuffered_channel.hpp:199, 206, 359).
    Counts are 64-bit signed integers, as in libstdc++ and libc++; the steady clock counts nanoseconds; the period of a duration is a positive whole number of nanoseconds (others do not convert implicitly, the code does not compile). std::chrono arithmetic converts both operands to the common period and then adds; overflow of a signed integer is undefined behaviour, the outcome [Overflow]; [wrap] gives what two's complement hardware computes. *)
From Coq Require Import ZArith Bool.
Local Open Scope Z_scope.

(** std::int64_t *)
Definition max64 : Z := 2 ^ 63 - 1.
Definition min64 : Z := - 2 ^ 63.
Definition fits (z : Z) : bool := (min64 <=? z) && (z <=? max64).
Inductive res := Val (z : Z) | Overflow.
Definition chk (z : Z) : res := if fits z then Val z else Overflow.
Definition bind (r : res) (f : Z -> res) : res := match r with Val z => f z | Overflow => Overflow end.
(** Two's complement *)
Definition wrap (z : Z) : Z := (z + 2 ^ 63) mod 2 ^ 64 - 2 ^ 63.

(** steady_clock::now() + timeout_duration: [now] in nanoseconds, the duration [count] times [unit] nanoseconds. *)
Definition deadline_for (now count unit : Z) : res :=
  bind (chk (count * unit)) (fun d => chk (now + d)).
Definition deadline_for_wrap (now count unit : Z) : Z := wrap (now + wrap (count * unit)).

(** convert.hpp:33-34: steady_clock::now() + ( timeout_time - Clock::now() ). [s], [c]: the two readings. [T]: count of the time point in units of [uT] nanoseconds; Clock counts units of [uC]. *)
Definition convert (s c T uT uC : Z) : res :=
  let g := Z.gcd uT uC in
  bind (chk (T * (uT / g))) (fun t' =>
  bind (chk (c * (uC / g))) (fun c' =>
  bind (chk (t' - c')) (fun d =>
  bind (chk (d * g)) (fun d' => chk (s + d'))))).
Definition convert_wrap (s c T uT uC : Z) : Z :=
  let g := Z.gcd uT uC in wrap (s + wrap (wrap (wrap (T * (uT / g)) - wrap (c * (uC / g))) * g)).
