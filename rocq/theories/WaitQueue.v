(** Model: class wait_queue (waker.hpp:71-84, waker.cpp:16-72) used by arbitrary fibers.

    Any number of queues, numbered; each is guarded by its own spinlock, which the callers hold
    during the calls, so each call is one step up to the context switch. *)
From Coq Require Import List Arith Bool.
From Verif Require Import Base Kernel.
Import ListNotations.

(** Where a fiber is. *)
Inductive pc :=
| Idle
| InWait (i e : nat)            (* waker.cpp:21, suspended in suspend_and_wait *)
| InWaitUntil (i tp e : nat)    (* waker.cpp:32, suspended in suspend_and_wait_until *)
| Relock (i tp e : nat).        (* waker.cpp:34-38, timed out, taking the spinlock again *)

(** What made a fiber ready again. *)
Inductive source := ByNotify (i : nat) | ByTimer.

(** Observable events: a fiber blocks on a queue (with optional deadline), a fiber is put into a
    ready queue (with the clock), the wait returns (false = timeout). *)
Inductive event :=
| EBlock (f : fid) (i : nat) (tp : option nat)
| EReady (f : fid) (src : source) (at_ : nat)
| ELeave (f : fid) (b : bool) (at_ : nat).

Record state := mkState {
  kn : kern;
  qs : nat -> wq;
  pcs : fid -> pc;
  log : list event
}.
Definition init : state := mkState kinit (fun _ => []) (fun _ => Idle) [].

Inductive label :=
| LK (l : klabel)
| LWait (f : fid) (i : nat)
| LWaitUntil (f : fid) (i tp : nat)
| LNotifyOne (f : fid) (i : nat)
| LNotifyAll (f : fid) (i : nat)
| LRun (f : fid)               (* running fiber continues inside a wait *)
| LYield (f : fid)             (* fiber outside a wait yields *)
| LContend (f : fid).          (* waker.cpp:35-37: try_lock() failed, yield *)

Definition ready_events (src : source) (k k' : kern) (fs : list fid) : list event :=
  rev (map (fun f => EReady f src (now k')) (flips k k' fs)).

Definition step (s : state) (l : label) : option state :=
  match l with
  | LK kl =>
      match kstep (kn s) kl with
      | None => None
      | Some k =>
          let ev := match kl with Timer f => ready_events ByTimer (kn s) k [f] | _ => [] end in
          Some (mkState k (qs s) (pcs s) (ev ++ log s))
      end
  | LWait f i =>                                            (* waker.cpp:16-21 *)
      match pcs s f with
      | Idle => if running (fib (kn s) f) then
                  let '(k, q, e) := suspend_and_wait (kn s) f (qs s i) in
                  Some (mkState k (upd (qs s) i q) (upd (pcs s) f (InWait i e)) (EBlock f i None :: log s))
                else None
      | _ => None
      end
  | LWaitUntil f i tp =>                                    (* waker.cpp:25-32 *)
      match pcs s f with
      | Idle => if running (fib (kn s) f) then
                  let '(k, q, e) := suspend_and_wait_until (kn s) f (qs s i) tp in
                  Some (mkState k (upd (qs s) i q) (upd (pcs s) f (InWaitUntil i tp e)) (EBlock f i (Some tp) :: log s))
                else None
      | _ => None
      end
  | LNotifyOne f i =>                                       (* waker.cpp:49-58 *)
      match pcs s f with
      | Idle => if running (fib (kn s) f) then
                  let '(k, q) := notify_one (kn s) (qs s i) in
                  Some (mkState k (upd (qs s) i q) (pcs s)
                          (ready_events (ByNotify i) (kn s) k (map fst (qs s i)) ++ log s))
                else None
      | _ => None
      end
  | LNotifyAll f i =>                                       (* waker.cpp:60-67 *)
      match pcs s f with
      | Idle => if running (fib (kn s) f) then
                  let '(k, q) := notify_all (kn s) (qs s i) in
                  Some (mkState k (upd (qs s) i q) (pcs s)
                          (ready_events (ByNotify i) (kn s) k (map fst (qs s i)) ++ log s))
                else None
      | _ => None
      end
  | LRun f =>
      if running (fib (kn s) f) then
        match pcs s f with
        | Idle => None
        | InWait i e =>                                     (* waker.cpp:22-23 *)
            Some (mkState (suspend_and_wait_end (kn s) (qs s i) (f, e)) (qs s) (upd (pcs s) f Idle)
                          (ELeave f true (now (kn s)) :: log s))
        | InWaitUntil i tp e =>                             (* scheduler.cpp:301, waker.cpp:32, 46 *)
            if wait_until_result (kn s) tp
            then Some (mkState (kn s) (qs s) (upd (pcs s) f Idle) (ELeave f true (now (kn s)) :: log s))
            else Some (mkState (kn s) (qs s) (upd (pcs s) f (Relock i tp e)) (log s))
        | Relock i tp e =>                                  (* waker.cpp:39-44 *)
            Some (mkState (kn s) (upd (qs s) i (if is_linked (qs s i) (f, e) then wq_remove (qs s i) (f, e) else qs s i))
                          (upd (pcs s) f Idle) (ELeave f false (now (kn s)) :: log s))
        end
      else None
  | LYield f =>
      match pcs s f with
      | Idle => if running (fib (kn s) f) then Some (mkState (yield (kn s) f) (qs s) (pcs s) (log s)) else None
      | _ => None
      end
  | LContend f =>
      match pcs s f with
      | Relock _ _ _ => if running (fib (kn s) f) then Some (mkState (yield (kn s) f) (qs s) (pcs s) (log s)) else None
      | _ => None
      end
  end.
