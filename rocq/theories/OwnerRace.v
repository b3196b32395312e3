(** Model: every single access to the member owner_ of a mutex (mutex.cpp:24-75; timed_mutex.cpp:23-94 has the same functions and try_lock_until(); the recursive types access owner_ in the same places). One mutex, any number of fibers, each of which may be interrupted between any two accesses (each on a thread of its own, the least favourable case).
    Simplified: the spinlock wait_queue_splk_ is acquired in one step if it is free (C49); a suspended fiber is woken by any unlock() or by its deadline. *)
From Coq Require Import List Arith Bool.
From Verif Require Import Base.
Import ListNotations.

(** Member functions; [TryUntil]: try_lock_until() and try_lock_for() of timed_mutex. *)
Inductive op := Lock | TryLock | Unlock | TryUntil.
(** [At0]: before the acquisition of the spinlock (mutex.cpp:28, 48, 65; timed_mutex.cpp:29). [Self]: before the comparison of owner_ with the active fiber (29, 49, 66). [Free]: before the comparison with nullptr (34, 54; timed_mutex.cpp:30). [Write]: before the assignment (35, 55, 71; timed_mutex.cpp:31). [Rel]: before the release of the spinlock, the result is known. [Susp]: suspended (39). [Again]: in try_lock(), after the release, before the second read of owner_ (60). *)
Inductive pc := Idle | At0 (o : op) | Self (o : op) | Free (o : op) | Write (o : op) | Rel (o : op) (took : bool) (err : bool) | Susp (o : op) | Again (took : bool).
(** Newest first. [took]: the function has set owner_; [err]: it throws; [res]: the value it returns. *)
Inductive event := ERet (f : nat) (o : op) (took err res : bool).
(** [splk]: who has the spinlock. *)
Record st := mkSt { splk : option nat; owner : option nat; fib : nat -> pc; log : list event }.
(** A new mutex (mutex.hpp:31-33). *)
Definition init_state : st := mkSt None None (fun _ => Idle) [].
(** [Call f o]; [Go f]: the next access; [Wake f]: a suspended fiber is woken; [Expire f]: its deadline passes. *)
Inductive label := Call (f : nat) (o : op) | Go (f : nat) | Wake (f : nat) | Expire (f : nat).

(** Is the fiber the owner? *)
Definition mine (s : st) (f : nat) : bool := match owner s with Some g => Nat.eqb g f | None => false end.
(** Field updates (model only). *)
Definition put (s : st) (f : nat) (p : pc) : st := mkSt (splk s) (owner s) (upd (fib s) f p) (log s).
(** The first access under the spinlock; try_lock_until() does not look for the active fiber (timed_mutex.cpp:30). *)
Definition first (o : op) : pc := match o with TryUntil => Free o | _ => Self o end.

(** The next access of a fiber. *)
Definition go (s : st) (f : nat) : option st :=
  match fib s f with
  | At0 o => match splk s with None => Some (mkSt (Some f) (owner s) (upd (fib s) f (first o)) (log s)) | Some _ => None end
  (* 29-33, 49-53 throw if it is the owner, 66-70 throw if it is not *)
  | Self Unlock => Some (put s f (if mine s f then Write Unlock else Rel Unlock false true))
  | Self o => Some (put s f (if mine s f then Rel o false true else Free o))
  | Free o => match owner s with
      | None => Some (put s f (Write o))
      | Some _ => match o with
          | TryLock => Some (put s f (Rel o false false))
          (* 39: the switch of fibers releases the spinlock *)
          | _ => Some (mkSt None (owner s) (upd (fib s) f (Susp o)) (log s))
          end
      end
  | Write o => Some (mkSt (splk s) (match o with Unlock => None | _ => Some f end) (upd (fib s) f (Rel o true false)) (log s))
  (* 57: try_lock() reads owner_ again after the release *)
  | Rel TryLock t false => Some (mkSt None (owner s) (upd (fib s) f (Again t)) (log s))
  | Rel o t e => Some (mkSt None (owner s) (upd (fib s) f Idle) (ERet f o t e (negb e) :: log s))
  (* 58-60 *)
  | Again t => Some (mkSt (splk s) (owner s) (upd (fib s) f Idle) (ERet f TryLock t false (mine s f) :: log s))
  | _ => None
  end.
(** One step. *)
Definition step (s : st) (l : label) : option st :=
  match l with
  | Call f o => match fib s f with Idle => Some (put s f (At0 o)) | _ => None end
  | Go f => go s f
  | Wake f => match fib s f with Susp o => Some (put s f (At0 o)) | _ => None end
  | Expire f => match fib s f with Susp TryUntil => Some (mkSt (splk s) (owner s) (upd (fib s) f Idle) (ERet f TryUntil false false false :: log s)) | _ => None end
  end.
