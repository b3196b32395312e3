(** Model: the programs examples/ping_pong.cpp and examples/range_for.cpp, for any number of rounds and any list of values. The channels are atomic here; their own models are Buffered and Unbuffered. *)
From Coq Require Import List Arith NArith Bool.
From Verif Require Import Base.
Import ListNotations.

(** The two strings of ping_pong.cpp:20, 29. *)
Inductive word := Ping | Pong.
(** The fibers of ping_pong.cpp: rounds done and whether the first half of a round is done, for fping (19-26) and fpong (27-34); the values in chan1 and chan2, oldest first; what was printed, newest first. *)
Record pp := PP { pi : nat; ph : bool; qi : nat; qh : bool; c1 : list word; c2 : list word; out : list word }.
(** Before the fibers run (ping_pong.cpp:17-27). *)
Definition pp_init : pp := PP 0 false 0 false [] [] [].
Inductive pp_label := LPing | LPong.
(** One operation of a fiber, in a program with [n] rounds and channels that hold [cap] values (channel_t chan{ 2 } holds one, buffered_channel.hpp:52-54): fping pushes (ping_pong.cpp:20) if there is room, pops and prints (21) if there is a value; fpong pops and prints (28), pushes (29). [None]: the fiber waits or has ended. *)
Definition pp_step (n cap : nat) (s : pp) (l : pp_label) : option pp :=
  match l with
  | LPing => if pi s =? n then None else
      if ph s then match c2 s with v :: r => Some (PP (S (pi s)) false (qi s) (qh s) (c1 s) r (v :: out s)) | [] => None end
      else if length (c1 s) <? cap then Some (PP (pi s) true (qi s) (qh s) (c1 s ++ [Ping]) (c2 s) (out s)) else None
  | LPong => if qi s =? n then None else
      if qh s then if length (c2 s) <? cap then Some (PP (pi s) (ph s) (S (qi s)) false (c1 s) (c2 s ++ [Pong]) (out s)) else None
      else match c1 s with v :: r => Some (PP (pi s) (ph s) (qi s) true r (c2 s) (v :: out s)) | [] => None end
  end.

(** The producer foo() (range_for.cpp:16-25): it has these values to push; it waits in push() until its value was taken; it has called close(). *)
Inductive prod := PGo (vs : list N) | PWait (vs : list N) | PEnd.
(** The consumer bar() (range_for.cpp:27-32): in the loop, or behind it. *)
Inductive cons := CLoop | CEnd.
(** The slot of the channel, closed_, the two fibers, what was printed, newest first. *)
Record rf := RF { slot : option N; closed : bool; prd : prod; con : cons; shown : list N }.
(** Before the fibers run (range_for.cpp:36-39); [vs]: the values of lines 17-23. *)
Definition rf_init (vs : list N) : rf := RF None false (PGo vs) CLoop [].
(** Steps: the producer stores its next value in the slot or calls close(); push() returns, which happens after the value was taken (unbuffered_channel.hpp:170-180); the consumer takes a value and prints it (range_for.cpp:28-29; begin() and ++ pop, unbuffered_channel.hpp:400-426), or finds the channel closed and leaves the loop. *)
Inductive rf_label := LStore | LReturn | LTake | LLeave.
Definition rf_step (s : rf) (l : rf_label) : option rf :=
  match l with
  | LStore => match prd s with
      | PGo (v :: vs) => match slot s with None => if closed s then None else Some (RF (Some v) (closed s) (PWait vs) (con s) (shown s)) | Some _ => None end
      | PGo [] => Some (RF (slot s) true PEnd (con s) (shown s))
      | _ => None end
  | LReturn => match prd s, slot s with PWait vs, None => Some (RF None (closed s) (PGo vs) (con s) (shown s)) | _, _ => None end
  | LTake => match con s, slot s with CLoop, Some v => Some (RF None (closed s) (prd s) CLoop (v :: shown s)) | _, _ => None end
  | LLeave => match con s, slot s with CLoop, None => if closed s then Some (RF None true (prd s) CEnd (shown s)) else None | _, _ => None end
  end.
