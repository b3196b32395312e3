(** Model: destroying a channel after the last value has been received, as the skynet benchmarks do: fibers::buffered_channel (performance/fiber/skynet_detach.cpp:35-48; buffered_channel.hpp:145-165, 299-322) and the channel for threads (performance/thread/skynet_std.cpp:25-35, skynet_pthread.cpp; performance/thread/buffered_channel.hpp:171-181, 199-207).
    Each of n producers pushes one value; one consumer takes n values and destroys the channel. Every access to the channel is a step; an access after the destruction is undefined behaviour.
    Simplified: the ring buffer is a count of values and never full (n is smaller than the capacity); a consumer that waits is one that has not yet taken the value; notifying a waiting fiber is part of the critical section; the spinlock is released by one store (spinlock_ttas.hpp:111-113; with try_lock() only, spinlock_ttas_futex::unlock() is one fetch_sub as well, spinlock_ttas_futex.hpp:118-123). *)
From Coq Require Import List Arith Bool.
From Verif Require Import Base.
Import ListNotations.

(** [Fib]: fibers::buffered_channel; [Thr]: the channel for threads. *)
Inductive kind := Fib | Thr.
(** A producer: [P0]: before push(); [P1]: fiber: has splk_, thread: has published its value; [P2]: fiber: has stored its value and notified, thread: has mtx_; [P3]: has left the channel. *)
Inductive ppc := P0 | P1 | P2 | P3.
(** The consumer: [C0]: wants a value; [C1]: has splk_; [C2]: has taken a value, has splk_; [C3]: has destroyed the channel. *)
Inductive cpc := C0 | C1 | C2 | C3.
(** [lock]: owner of splk_ or mtx_ (0 for the consumer, S t for producer t); [full]: number of values in the channel; [got]: number of values taken; [ub]: access to a destroyed channel. *)
Record st := mkSt { lock : option nat; full : nat; got : nat; prod : nat -> ppc; cons : cpc; ub : bool }.
(** A fresh channel. *)
Definition init_state : st := mkSt None 0 0 (fun _ => P0) C0 false.
(** A step of a producer or of the consumer. *)
Inductive label := LProd (t : nat) | LCons.

Section ChanLife.
Variables (k : kind) (n : nat).
(** Whether the channel has been destroyed (end of the scope of rc, skynet_detach.cpp:48). *)
Definition gone (s : st) : bool := match cons s with C3 => true | _ => false end.
(** An access to the channel: undefined if it has been destroyed. *)
Definition touch (s : st) (s' : st) : st := if gone s then mkSt (lock s) (full s) (got s) (prod s) (cons s) true else s'.
(** push() of producer t: fiber: buffered_channel.hpp:148-162 (splk_ by try_lock(), store and notify, unlock); thread: performance/thread/buffered_channel.hpp:176-181 (try_push_() publishes, then mtx_ is locked, the consumer is notified, mtx_ is unlocked). *)
Definition step_prod (s : st) (t : nat) : option st :=
  if t <? n then
    match k, prod s t with
    | Fib, P0 => match lock s with None => Some (touch s (mkSt (Some (S t)) (full s) (got s) (upd (prod s) t P1) (cons s) (ub s))) | Some _ => None end
    | Fib, P1 => Some (touch s (mkSt (lock s) (S (full s)) (got s) (upd (prod s) t P2) (cons s) (ub s)))
    | Fib, P2 => Some (touch s (mkSt None (full s) (got s) (upd (prod s) t P3) (cons s) (ub s)))
    | Thr, P0 => Some (touch s (mkSt (lock s) (S (full s)) (got s) (upd (prod s) t P1) (cons s) (ub s)))
    | Thr, P1 => match lock s with None => Some (touch s (mkSt (Some (S t)) (full s) (got s) (upd (prod s) t P2) (cons s) (ub s))) | Some _ => None end
    | Thr, P2 => Some (touch s (mkSt None (full s) (got s) (upd (prod s) t P3) (cons s) (ub s)))
    | _, P3 => None
    end
  else None.
(** value_pop() (buffered_channel.hpp:299-322; performance/thread/buffered_channel.hpp:199-207, without the lock), and the destruction after n values. *)
Definition step_cons (s : st) : option st :=
  match cons s with
  | C0 =>
      if got s =? n then Some (mkSt (lock s) (full s) (got s) (prod s) C3 (ub s))
      else match k with
           | Fib => match lock s with None => Some (mkSt (Some 0) (full s) (got s) (prod s) C1 (ub s)) | Some _ => None end
           | Thr => match full s with S f => Some (mkSt (lock s) f (S (got s)) (prod s) C0 (ub s)) | 0 => None end
           end
  | C1 => match full s with S f => Some (mkSt (lock s) f (S (got s)) (prod s) C2 (ub s)) | 0 => Some (mkSt None (full s) (got s) (prod s) C0 (ub s)) end
  | C2 => Some (mkSt None (full s) (got s) (prod s) C0 (ub s))
  | C3 => None
  end.
(** One step. *)
Definition step (s : st) (l : label) : option st := match l with LProd t => step_prod s t | LCons => step_cons s end.
End ChanLife.
