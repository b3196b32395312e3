(** Model: the lifetime of a condition variable (condition_variable.hpp:49-133, condition_variable.cpp:18-28, waker.cpp:16-68). One condition variable, any number of fibers on any number of threads that wait on it with and without a time limit, notify and destroy it.
    Simplified: a critical section under wait_queue_splk_ is one step, so that try_lock() in waker.cpp:34 succeeds; the user's mutex is left out: the fiber returns in a separate step after lt.lock(). What a call does after the condition variable has been destroyed is not defined; the model records the access and goes on. *)
From Coq Require Import List Arith Bool.
From Verif Require Import Base.
Import ListNotations.

(** Newest first. *)
Inductive event :=
  | EWait (f : nat) (timed : bool)   (* f calls wait() / wait_until() *)
  | ETimeout (f : nat)               (* the deadline of f has passed and f is made ready by its scheduler *)
  | ENotifyAll (g : nat) | ENotifyOne (g : nat)  (* calls *)
  | EWoken (f : nat)                 (* a notification reaches f *)
  | EReturn (f : nat) (r : bool)     (* wait() returns; true: cv_status::no_timeout *)
  | EDestroy (g : nat)
  | EAssert                          (* BOOST_ASSERT( wait_queue_.empty() ) fails, condition_variable.hpp:58 *)
  | EBad (f : nat).                  (* f accesses the destroyed object *)
(** [Out]: not in wait(). [InWait timed]: suspended in waker.cpp:20 or 31. [Expired]: woken by the scheduler, before the lock is taken again, waker.cpp:33-37. [Back r]: the functions of the wait queue have returned, before lt.lock(). *)
Inductive pc := Out | InWait (timed : bool) | Expired | Back (r : bool).
(** [queue]: the wakers in wait_queue_. *)
Record st := mkSt { alive : bool; queue : list nat; fib : nat -> pc; log : list event }.
(** A new condition variable (condition_variable.hpp:55). *)
Definition init_state : st := mkSt true [] (fun _ => Out) [].
(** [Expire]: scheduler::sleep2ready_(). [Remove]: waker.cpp:33-44. *)
Inductive label := Wait (f : nat) (timed : bool) | Expire (f : nat) | NotifyAll (g : nat) | NotifyOne (g : nat) | Remove (f : nat) | Return (f : nat) | Destroy (g : nat).

(** An access to the members of the condition variable (model only). *)
Definition touch (s : st) (f : nat) : list event := if alive s then [] else [EBad f].
(** waker::wake() (waker.cpp:9-14) succeeds if the fiber still waits. *)
Definition waits (m : nat -> pc) (f : nat) : bool := match m f with InWait _ => true | _ => false end.
(** wait_queue::notify_all(), waker.cpp:61-68: all wakers are removed and called. *)
Fixpoint wake_all (m : nat -> pc) (q : list nat) : (nat -> pc) * list event :=
  match q with
  | [] => (m, [])
  | f :: r => if waits m f then let (m', es) := wake_all (upd m f (Back true)) r in (m', es ++ [EWoken f]) else wake_all m r
  end.
(** wait_queue::notify_one(), waker.cpp:50-59: wakers are removed and called until one succeeds. *)
Fixpoint wake_one (m : nat -> pc) (q : list nat) : (nat -> pc) * list nat * list event :=
  match q with
  | [] => (m, [], [])
  | f :: r => if waits m f then (upd m f (Back true), r, [EWoken f]) else wake_one m r
  end.

(** One step. *)
Definition step (s : st) (l : label) : option st :=
  match l with
  (* condition_variable.hpp:68-74 and 94-104 up to the suspension *)
  | Wait f t => match fib s f with
      | Out => Some (mkSt (alive s) (queue s ++ [f]) (upd (fib s) f (InWait t)) (touch s f ++ EWait f t :: log s))
      | _ => None end
  | Expire f => match fib s f with
      | InWait true => Some (mkSt (alive s) (queue s) (upd (fib s) f Expired) (ETimeout f :: log s))
      | _ => None end
  (* condition_variable.cpp:24-28 *)
  | NotifyAll g => let (m, es) := wake_all (fib s) (queue s) in Some (mkSt (alive s) [] m (es ++ touch s g ++ ENotifyAll g :: log s))
  (* condition_variable.cpp:18-22 *)
  | NotifyOne g => let '(m, q, es) := wake_one (fib s) (queue s) in Some (mkSt (alive s) q m (es ++ touch s g ++ ENotifyOne g :: log s))
  (* waker.cpp:33-44 *)
  | Remove f => match fib s f with
      | Expired => Some (mkSt (alive s) (remove Nat.eq_dec f (queue s)) (upd (fib s) f (Back false)) (touch s f ++ log s))
      | _ => None end
  (* condition_variable.hpp:75-84 and 105-119 *)
  | Return f => match fib s f with
      | Back r => Some (mkSt (alive s) (queue s) (upd (fib s) f Out) (EReturn f r :: log s))
      | _ => None end
  (* condition_variable.hpp:57-59 *)
  | Destroy g => if alive s then Some (mkSt false (queue s) (fib s) ((if match queue s with [] => true | _ => false end then [] else [EAssert]) ++ EDestroy g :: log s)) else None
  end.
