(** Model: detail::thread_barrier (detail/thread_barrier.hpp), the barrier of threads that the constructors of work_stealing use. The part of wait() that runs under mtx_ is one step; std::condition_variable is modelled by the set of the threads that sleep on it, notify_all() wakes all of them, and a thread may wake without being notified. Simplified: locking mtx_ and the condition variable do not throw. *)
From Coq Require Import List Arith Bool.
From Verif Require Import Base.
Import ListNotations.

(** Thread. [Out]: not in wait(). [Sleep c]: in cond_.wait() (line 55), not notified, [c] is its variable cycle. [Woken c]: about to lock mtx_ and to evaluate the predicate (55). [Notify]: last of its round, mtx_ unlocked, about to call notify_all() (52). *)
Inductive tpc := Out | Sleep (c : bool) | Woken (c : bool) | Notify.
(** Newest first: call of wait() (the thread is counted), return with result. *)
Inductive event := EArrive (t : nat) | ERet (t : nat) (b : bool).
(** The members initial_ (parameter [n]), current_, cycle_ (lines 29-31); the threads. *)
Record st := mkSt { current : nat; cycle : bool; pc : nat -> tpc; log : list event }.
(** [Enter t]: thread t calls wait() and runs up to the condition variable. [NotifyAll t]: line 52. [Spurious t]: t wakes without notification. [Check t]: t locks mtx_ and evaluates the predicate. *)
Inductive label := Enter (t : nat) | NotifyAll (t : nat) | Spurious (t : nat) | Check (t : nat).

(** thread_barrier::thread_barrier(), lines 36-40; [None]: the assertion fails. *)
Definition init (n : nat) : st := mkSt n true (fun _ => Out) [].
Definition make (n : nat) : option st := if n =? 0 then None else Some (init n).

(** notify_all() *)
Definition wake (p : tpc) : tpc := match p with Sleep c => Woken c | _ => p end.

(** wait(), lines 45-57 *)
Definition step (n : nat) (s : st) (l : label) : option st :=
  match l with
  | Enter t =>
      match pc s t with
      | Out =>
          if current s - 1 =? 0
          then Some (mkSt n (negb (cycle s)) (upd (pc s) t Notify) (EArrive t :: log s))
          else Some (mkSt (current s - 1) (cycle s) (upd (pc s) t (Sleep (cycle s))) (EArrive t :: log s))
      | _ => None
      end
  | NotifyAll t =>
      match pc s t with
      | Notify => Some (mkSt (current s) (cycle s) (upd (fun u => wake (pc s u)) t Out) (ERet t true :: log s))
      | _ => None
      end
  | Spurious t =>
      match pc s t with
      | Sleep c => Some (mkSt (current s) (cycle s) (upd (pc s) t (Woken c)) (log s))
      | _ => None
      end
  | Check t =>
      match pc s t with
      | Woken c =>
          if eqb c (cycle s)
          then Some (mkSt (current s) (cycle s) (upd (pc s) t (Sleep c)) (log s))
          else Some (mkSt (current s) (cycle s) (upd (pc s) t Out) (ERet t false :: log s))
      | _ => None
      end
  end.
