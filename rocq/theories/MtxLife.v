(** Model: the lifetime of a mutex that every one of n fibers uses once: it locks the mutex with lock() or by repeating try_lock(), counts down the users, unlocks, and the fiber that has counted down to 0 destroys the mutex (src/mutex.cpp:24-75; the other mutexes have the same accesses). Every access to the mutex is a step of its own; the fibers run on any number of threads.
    fut: BOOST_FIBERS_SPINLOCK_TTAS_FUTEX, where unlock() of the spinlock may end with a system call (include/boost/fiber/detail/spinlock_ttas_futex.hpp:118-123); otherwise it is a single store (spinlock_ttas.hpp:111-113).
    Simplified: lock() of the spinlock is a step that is enabled when it is free. *)
From Coq Require Import List Arith Bool.
From Verif Require Import Base.
Import ListNotations.

(** What follows when the spinlock has been released. *)
Inductive kont := KHold | KTry | KSleep | KDone (last : bool).
(** Program counters. *)
Inductive pc :=
| PIdle               (* before lock() or try_lock() (mutex.cpp:24, 45) *)
| PAcq                (* lock(): before the spinlock is locked (mutex.cpp:28) *)
| PIn                 (* lock(): owner_ is examined (mutex.cpp:29-39) *)
| PTAcq               (* try_lock(): before the spinlock is locked (mutex.cpp:47) *)
| PTIn                (* try_lock(): owner_ is examined (mutex.cpp:48-55) *)
| PRel (k : kont)     (* unlock() of the spinlock (mutex.cpp:35, 56, 74; waker.cpp:22) *)
| PStore (k : kont)   (* futex: value_.store( 0) (spinlock_ttas_futex.hpp:120) *)
| PWake (k : kont)    (* futex: futex_wake( & value_) (spinlock_ttas_futex.hpp:121) *)
| PSleep              (* suspended, in the wait queue (waker.cpp:18-24) *)
| PTRead              (* try_lock(): owner_ is read after yield() (mutex.cpp:59) *)
| PHold               (* holds the mutex; counts down *)
| PUAcq (last : bool) (* unlock(): before the spinlock is locked (mutex.cpp:65) *)
| PUIn (last : bool)  (* unlock(): owner_ is cleared and the first waiter is woken (mutex.cpp:66-73) *)
| PDone (last : bool).

(** An access: to the memory of the mutex, or a system call that only gets its address. *)
Inductive access := Word | Addr.
(** splk: fiber that has locked wait_queue_splk_; owner: owner_; queue: wait_queue_ (mutex.hpp:37-39); cnt: users that have not yet counted down; spw: number of futex_wake() that the contexts that run after the fiber has been suspended still have to call; bad: accesses after the destruction. *)
Record state := mkS { splk : option nat; owner : option nat; queue : list nat; cnt : nat; pcs : nat -> pc; spw : nat -> nat; dead : bool; bad : list access }.
(** Run f c: the next step of fiber f (c: a choice); Late f: the pending futex_wake(); Destroy f. *)
Inductive label := Run (f : nat) (c : bool) | Late (f : nat) | Destroy (f : nat).

Section M.
Variables (fut : bool) (n : nat).
(** Start: the mutex is free (mutex.hpp:37-42). *)
Definition init : state := mkS None None [] n (fun _ => PIdle) (fun _ => 0) false [].
(** The accesses after the destruction are recorded. *)
Definition note (a : access) (s : state) : list access := if dead s then a :: bad s else bad s.
(** Program counter after the spinlock has been released (mutex.cpp:35, 58-59, 74-75; waker.cpp:22). *)
Definition next (k : kont) : pc := match k with KHold => PHold | KTry => PTRead | KSleep => PSleep | KDone l => PDone l end.
(** A step that changes the program counter only. *)
Definition goto (s : state) (f : nat) (p : pc) : state := mkS (splk s) (owner s) (queue s) (cnt s) (upd (pcs s) f p) (spw s) (dead s) (bad s).
(** A step that locks the spinlock. *)
Definition acquire (s : state) (f : nat) (p : pc) : option state := match splk s with None => Some (mkS (Some f) (owner s) (queue s) (cnt s) (upd (pcs s) f p) (spw s) (dead s) (note Word s)) | Some _ => None end.
(** mutex.cpp:24-75, step by step. *)
Definition run (s : state) (f : nat) (c : bool) : option state :=
  match pcs s f with
  | PIdle => Some (goto s f (if c then PTAcq else PAcq))
  | PAcq => acquire s f PIn
  | PIn => match owner s with
           | None => Some (mkS (splk s) (Some f) (queue s) (cnt s) (upd (pcs s) f (PRel KHold)) (spw s) (dead s) (note Word s))
           | Some _ => Some (mkS (splk s) (owner s) (queue s ++ [f]) (cnt s) (upd (pcs s) f (PRel KSleep)) (spw s) (dead s) (note Word s))
           end
  | PTAcq => acquire s f PTIn
  | PTIn => match owner s with
            | None => Some (mkS (splk s) (Some f) (queue s) (cnt s) (upd (pcs s) f (PRel KTry)) (spw s) (dead s) (note Word s))
            | Some _ => Some (mkS (splk s) (owner s) (queue s) (cnt s) (upd (pcs s) f (PRel KTry)) (spw s) (dead s) (note Word s))
            end
  | PRel k => if fut && c then Some (mkS (splk s) (owner s) (queue s) (cnt s) (upd (pcs s) f (PStore k)) (spw s) (dead s) (note Word s))
              else Some (mkS None (owner s) (queue s) (cnt s) (upd (pcs s) f (next k)) (spw s) (dead s) (note Word s))
  | PStore k => match k with
                | KSleep => Some (mkS None (owner s) (queue s) (cnt s) (upd (pcs s) f PSleep) (upd (spw s) f (S (spw s f))) (dead s) (note Word s))
                | _ => Some (mkS None (owner s) (queue s) (cnt s) (upd (pcs s) f (PWake k)) (spw s) (dead s) (note Word s))
                end
  | PWake k => Some (mkS (splk s) (owner s) (queue s) (cnt s) (upd (pcs s) f (next k)) (spw s) (dead s) (note Addr s))
  | PSleep => None
  | PTRead => Some (mkS (splk s) (owner s) (queue s) (cnt s) (upd (pcs s) f (match owner s with Some g => if f =? g then PHold else PIdle | None => PIdle end)) (spw s) (dead s) (note Word s))
  | PHold => Some (mkS (splk s) (owner s) (queue s) (cnt s - 1) (upd (pcs s) f (PUAcq (cnt s =? 1))) (spw s) (dead s) (bad s))
  | PUAcq l => acquire s f (PUIn l)
  | PUIn l => match queue s with
              | [] => Some (mkS (splk s) None [] (cnt s) (upd (pcs s) f (PRel (KDone l))) (spw s) (dead s) (note Word s))
              | w :: q => Some (mkS (splk s) None q (cnt s) (upd (upd (pcs s) w PAcq) f (PRel (KDone l))) (spw s) (dead s) (note Word s))
              end
  | PDone _ => None
  end.
(** Steps of the n fibers (mutex.cpp:24-75, spinlock_ttas_futex.hpp:118-123) and the destruction (mutex.hpp:44-47) by the fiber that was the last to count down. *)
Definition step (s : state) (l : label) : option state :=
  match l with
  | Run f c => if f <? n then run s f c else None
  | Late f => match spw s f with S k => Some (mkS (splk s) (owner s) (queue s) (cnt s) (pcs s) (upd (spw s) f k) (dead s) (note Addr s)) | 0 => None end
  | Destroy f => match pcs s f with PDone true => if dead s then None else Some (mkS (splk s) (owner s) (queue s) (cnt s) (pcs s) (spw s) true (bad s)) | _ => None end
  end.
End M.
