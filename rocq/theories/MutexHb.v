(** Model: what happens before what when fibers synchronize with a mutex and a condition variable: mutex, timed_mutex ([rec] = false), recursive_mutex, recursive_timed_mutex ([rec] = true) and condition_variable_any (src/mutex.cpp, src/timed_mutex.cpp, src/recursive_mutex.cpp, src/recursive_timed_mutex.cpp, condition_variable.hpp:69-104, src/condition_variable.cpp:18-28).
    The actions that happen before the next action of a fiber are its [view]; wait_queue_splk_ of the mutex and of the condition variable carry the views of the fibers that have released them (C71). Data that the mutex protects is accessed by its owner; an access that is not ordered after all earlier ones is a data race ([ERace]).
    Simplified: a critical section under wait_queue_splk_ is one step. The wait queues are left out: a suspended fiber may be resumed at any time, and the wakeup adds nothing to its view. Hence the model has all executions of the code, and more, with less happens-before. *)
From Coq Require Import List Arith Bool.
From Verif Require Import Base.
Import ListNotations.

(** Operations: lock(), try_lock(), try_lock_until(), unlock(), wait() or wait_until() of the condition variable with this mutex, notify_one() or notify_all(); [ORelock]: lt.lock() in wait() (condition_variable.hpp:79, 114). *)
Inductive op := OLock | OTry | OUntil | OUnlock | OWait | ONotify | ORelock.
(** [Go o]: at the beginning of the operation; [Susp o]: suspended in suspend_and_wait() or suspend_and_wait_until(). *)
Inductive pc_t := Idle | Go (o : op) | Susp (o : op).
(** Newest first. [EAct t n]: action n of t; [EAcq t w]: t has become the owner, w: the actions that happen before; [ERel t]: t has given up the ownership; [EFail t]: false is returned; [EErr t]: lock_error; [ETouch t]: access to the protected data; [ERace t]: data race. *)
Inductive event := EAct (t n : nat) | EAcq (t : nat) (w : list nat) | ERel (t : nat) | EFail (t : nat) | EErr (t : nat) | ETouch (t : nat) | ERace (t : nat).
(** owner_, count_ (recursive_mutex.hpp:43-44), the view attached to wait_queue_splk_ of the mutex, to wait_queue_splk_ of the condition variable (condition_variable.hpp:45); the accesses to the protected data. *)
Record st := mkSt { owner : option nat; cnt : nat; mv : list nat; cv : list nat; acc : list nat; view : nat -> list nat; next : nat; pc : nat -> pc_t; log : list event }.
(** [Call t o]: t calls an operation; [Act t], [Touch t]: between operations; [Run t]: the critical section of the operation; [Wake t]: t is resumed; [Time t]: t is resumed by the timeout and removes itself from the queue (src/waker.cpp:35-46). *)
Inductive label := Act (t : nat) | Touch (t : nat) | Call (t : nat) (o : op) | Run (t : nat) | Wake (t : nat) | Time (t : nat).
(** mutex.hpp:39, recursive_mutex.hpp:43-44. *)
Definition init_state : st := mkSt None 0 [] [] [] (fun _ => []) 0 (fun _ => Idle) [].
(** Model only: the earlier accesses l are in the view w. *)
Definition mem (n : nat) (w : list nat) : bool := existsb (Nat.eqb n) w.
Definition ordered (l w : list nat) : bool := forallb (fun n => mem n w) l.
(** Model only: a critical section of the mutex by t: owner_ and count_ become o and c, t goes on at p. *)
Definition section (s : st) (t : nat) (o : option nat) (c : nat) (p : pc_t) (e : list event) : st :=
  let w := mv s ++ view s t in mkSt o c w (cv s) (acc s) (upd (view s) t w) (next s) (upd (pc s) t p) (e ++ log s).
(** Model only: the fiber is the owner. *)
Definition owns (s : st) (t : nat) : bool := match owner s with Some u => u =? t | None => false end.
(** lock(), try_lock() and try_lock_until() from the construction of lk on (mutex.cpp:29-40, 47-59; timed_mutex.cpp:29-37; recursive_mutex.cpp:27-37, 44-54; recursive_timed_mutex.cpp:30-42). timed_mutex::try_lock_until() does not test for the owner (C60). The result of try_lock() is that of line 53 instead of the one of line 59 (C110). *)
Definition acquire (rec : bool) (s : st) (t : nat) (o : op) : st :=
  if owns s t then
    if rec then section s t (owner s) (S (cnt s)) Idle []
    else match o with OUntil => section s t (owner s) (cnt s) (Susp o) [] | _ => section s t (owner s) (cnt s) Idle [EErr t] end
  else match owner s with
    | None => section s t (Some t) 1 Idle [EAcq t (mv s ++ view s t)]
    | Some _ => match o with OTry => section s t (owner s) (cnt s) Idle [EFail t] | _ => section s t (owner s) (cnt s) (Susp o) [] end end.
(** unlock() (mutex.cpp:64-73; recursive_mutex.cpp:59-69); then t goes on at p. *)
Definition release (rec : bool) (s : st) (t : nat) (p : pc_t) : st :=
  if owns s t then
    if rec && negb (cnt s =? 1) then section s t (owner s) (pred (cnt s)) p []
    else section s t None 0 p [ERel t]
  else section s t (owner s) (cnt s) Idle [EErr t].
(** Model only: a critical section of the condition variable by t. *)
Definition csection (s : st) (t : nat) (p : pc_t) : st :=
  let w := cv s ++ view s t in mkSt (owner s) (cnt s) (mv s) w (acc s) (upd (view s) t w) (next s) (upd (pc s) t p) (log s).
(** One step. wait() (condition_variable.hpp:73-75): lt.unlock() within the critical section of the condition variable. notify_one(), notify_all() (src/condition_variable.cpp:20-21, 26-27). *)
Definition step (rec : bool) (s : st) (l : label) : option st :=
  match l with
  | Act t => match pc s t with Idle => Some (mkSt (owner s) (cnt s) (mv s) (cv s) (acc s) (upd (view s) t (next s :: view s t)) (S (next s)) (pc s) (EAct t (next s) :: log s)) | _ => None end
  | Touch t => match pc s t with
      | Idle => if owns s t then
          Some (if ordered (acc s) (view s t)
            then mkSt (owner s) (cnt s) (mv s) (cv s) (next s :: acc s) (upd (view s) t (next s :: view s t)) (S (next s)) (pc s) (ETouch t :: log s)
            else mkSt (owner s) (cnt s) (mv s) (cv s) (acc s) (view s) (next s) (pc s) (ERace t :: log s))
          else None
      | _ => None end
  | Call t o => match pc s t, o with Idle, ORelock => None | Idle, _ => Some (mkSt (owner s) (cnt s) (mv s) (cv s) (acc s) (view s) (next s) (upd (pc s) t (Go o)) (log s)) | _, _ => None end
  | Run t => match pc s t with
      | Go OUnlock => Some (release rec s t Idle)
      | Go OWait => Some (release rec (csection s t Idle) t (Susp ORelock))
      | Go ONotify => Some (csection s t Idle)
      | Go o => Some (acquire rec s t o)
      | _ => None end
  | Wake t => match pc s t with Susp o => Some (mkSt (owner s) (cnt s) (mv s) (cv s) (acc s) (view s) (next s) (upd (pc s) t (Go o)) (log s)) | _ => None end
  | Time t => match pc s t with
      | Susp OUntil => Some (section s t (owner s) (cnt s) Idle [EFail t])
      | Susp ORelock => Some (csection s t (Go ORelock))
      | _ => None end
  end.
