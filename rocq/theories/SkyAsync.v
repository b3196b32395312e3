(** Model: the recursive function skynet() with futures (performance/fiber/skynet_stealing_async.cpp:43-67, performance/thread/skynet_async.cpp:34-56). A call together with the calls it has launched is a tree; every node of the tree may take the next step at any time (all schedulers, launch policies and threads). std::uint64_t is N modulo 2^64. The future of a call is its node; future::get() waits until the call has returned (FutureObj, SharedState). Memory for stacks is not limited. *)
From Coq Require Import List Arith NArith Bool.
From Verif Require Import Base.
Import ListNotations.
Local Open Scope N_scope.

(** Arithmetic of std::uint64_t (skynet_stealing_async.cpp:51, 61). *)
Definition wrap (x : N) : N := x mod 2 ^ 64.
(** A call: not yet begun, with num and size (line 43); between the begin of the loop and the return, with num, the reduced size, the calls launched, the number of futures got and sum (45-63); returned (63, 66); [Crash]: division by zero (45). *)
Inductive call := New (num size : N) | Par (num size : N) (cs : list call) (got : nat) (sum : N) | Ret (v : N) | Crash.

(** The next step of a call itself: lines 44-45 and 66; the launch of a further call (50-57); the next get() (60-61); the return (63). *)
Definition own (div : nat) (c : call) : option call :=
  match c with
  | New n sz => if sz =? 1 then Some (Ret n) else match div with O => Some Crash | _ => Some (Par n (sz / N.of_nat div) [] 0 0) end
  | Par n sz cs k s =>
      if (length cs <? div)%nat then Some (Par n sz (cs ++ [New (wrap (n + wrap (N.of_nat (length cs) * sz))) sz]) k s)
      else if (k <? div)%nat then match nth_error cs k with Some (Ret v) => Some (Par n sz cs (S k) (wrap (s + v))) | _ => None end
      else Some (Ret s)
  | Ret _ | Crash => None
  end.
(** Put [x] in place [i] of the calls launched (the vector results, skynet_stealing_async.cpp:47). *)
Fixpoint setn (l : list call) (i : nat) (x : call) : list call :=
  match l, i with [], _ => [] | _ :: r, O => x :: r | y :: r, S j => y :: setn r j x end.
(** A step of the call with the path [p] (the number of the launched call on each level, skynet_stealing_async.cpp:50-57). *)
Fixpoint step (div : nat) (c : call) (p : list nat) {struct p} : option call :=
  match p with
  | [] => own div c
  | i :: r => match c with
      | Par n sz cs k s => match nth_error cs i with
          | Some x => match step div x r with Some y => Some (Par n sz (setn cs i y) k s) | None => None end
          | None => None end
      | _ => None end
  end.
