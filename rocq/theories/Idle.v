(** Model: the schedulers of Drive.v together with the suspension of idle threads: algorithm::suspend_until() and notify() (round_robin.cpp:47-66, shared_work.cpp:69-92, work_stealing.cpp:92-115, numa work_stealing.cpp:161-184), any number of threads, thread t with algorithm object t of any kind.
    Simplified: a thread that waits at the condition variable goes on as soon as flag_ is set (notify_all() after the assignment is not a step of its own; a spurious wake-up evaluates the predicate and waits again, so it is no step). Whether the sleep queue of the dispatcher is empty (time_point::max()) is chosen by the label, and a finite time point may be reached at any time. *)
From Coq Require Import List Arith Bool.
From Verif Require Import Base Algo Drive.
Import ListNotations.

(** Where an idle thread is. [Busy]: not idle, see [mode]. [Going]: pick_next() has returned nullptr to dispatch(), suspend_until() has not looked at flag_ yet (scheduler.cpp:142, 157-168). [Asleep dl]: in cnd_.wait() ([dl] = false) or cnd_.wait_until() ([dl] = true). *)
Inductive idle_t := Busy | Going | Asleep (dl : bool).

Record ist := mkI {
  dr : dst;                     (* the schedulers *)
  idle : nat -> idle_t;
  flag : nat -> bool;           (* flag_ of each algorithm object *)
  note : nat -> option nat      (* thread is in schedule_from_remote( c), after lk.unlock(), about to call notify() of that scheduler (scheduler.cpp:211-213) *)
}.

Inductive ilabel :=
  | D (l : label)               (* step of Drive.v *)
  | Notify (t : nat)            (* scheduler.cpp:213 *)
  | Enter (t : nat) (dl : bool) (* suspend_until(): the first evaluation of the predicate *)
  | Rouse (t : nat)             (* notified *)
  | Timeout (t : nat).          (* the time point has been reached *)

(** The thread that makes a step of Drive.v. *)
Definition who (l : label) : nat :=
  match l with
  | Begin t | Spawn t _ | Launch t _ | Yield t | Block t | Term t | Wake t _ | Exit t | Break t | Loop t | Next t | Choose t _ => t
  end.

Section Idle.
Variable kind : nat -> akind.
Variable sched : nat -> nat -> option nat.
Variable susp : nat -> bool.    (* suspend_ of each algorithm object (shared_work.hpp:43, work_stealing.hpp:46) *)

(** Objects whose suspend_until() and notify() do something: shared_work.cpp:70, 86, work_stealing.cpp:93, 108; round_robin has no such switch. *)
Definition sleeps (a : nat) : bool := match kind a with RoundRobin => true | _ => susp a end.

(** notify() of object [a]: round_robin.cpp:60-66, shared_work.cpp:84-92, work_stealing.cpp:106-115. *)
Definition notify (f : nat -> bool) (a : nat) : nat -> bool := if sleeps a then upd f a true else f.

(** pick_next() has just returned nullptr to the dispatcher of [t]: a step of Drive.v from inside dispatch() (scheduler.cpp:138-142) back to the head of the loop. *)
Definition null_picked (s s' : dst) (t : nat) : bool :=
  match mode s t, mode s' t with
  | (Drain _ | Picking KDisp), Run _ => true
  | _, _ => false
  end.

(** The scheduler that a wake-up by [t] of [c] has to notify: context.cpp:307-314, scheduler.cpp:213. *)
Definition target (s : dst) (l : label) : option nat :=
  match l with
  | Wake t c => match att (al s) c with Some u => if u =? t then None else Some u | None => None end
  | _ => None
  end.

(** One step of one thread. A thread that is idle, or is about to call notify(), does nothing else. notify() at the head of dispatch() during shutdown: scheduler.cpp:126-128. *)
Definition istep (s : ist) (l : ilabel) : option ist :=
  match l with
  | D l =>
      let t := who l in
      match idle s t, note s t with
      | Busy, None =>
          match dstep kind sched (dr s) l with
          | Some d =>
              Some (mkI d (if null_picked (dr s) d t then upd (idle s) t Going else idle s)
                        (match l with Loop _ | Break _ => if down (dr s) t then notify (flag s) t else flag s | _ => flag s end)
                        (upd (note s) t (target (dr s) l)))
          | None => None
          end
      | _, _ => None
      end
  | Notify t =>
      match note s t with
      | Some u => Some (mkI (dr s) (idle s) (notify (flag s) u) (upd (note s) t None))
      | None => None
      end
  | Enter t dl =>
      match idle s t with
      | Going =>
          if negb (sleeps t) then Some (mkI (dr s) (upd (idle s) t Busy) (flag s) (note s))
          else if flag s t then Some (mkI (dr s) (upd (idle s) t Busy) (upd (flag s) t false) (note s))
          else Some (mkI (dr s) (upd (idle s) t (Asleep dl)) (flag s) (note s))
      | _ => None
      end
  | Rouse t =>
      match idle s t with
      | Asleep _ => if flag s t then Some (mkI (dr s) (upd (idle s) t Busy) (upd (flag s) t false) (note s)) else None
      | _ => None
      end
  | Timeout t =>
      match idle s t with
      | Asleep true => Some (mkI (dr s) (upd (idle s) t Busy) (upd (flag s) t false) (note s))
      | _ => None
      end
  end.

(** flag_{ false } (round_robin.hpp:37, shared_work.hpp:42, work_stealing.hpp:45). *)
Definition iinit : ist := mkI dinit (fun _ => Busy) (fun _ => false) (fun _ => None).
End Idle.
