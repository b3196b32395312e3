(** Specification vocabulary for the futex based spinlocks. *)
From Coq Require Import List Arith Bool ZArith.
From Verif Require Import Base FutexLock.
Import ListNotations.

(** The threads between lock()/successful try_lock() and unlock(), according to the record, with the number of their critical section. *)
Fixpoint inside (lg : list event) (t : nat) : option nat :=
  match lg with
  | [] => None
  | EAcquire t' n _ :: lg' => if t =? t' then Some n else inside lg' t
  | ERelease t' _ _ :: lg' => if t =? t' then None else inside lg' t
  | _ :: lg' => inside lg' t
  end.
(** The same, but up to the access of unlock() that frees the lock. *)
Fixpoint held (lg : list event) (t : nat) : bool :=
  match lg with
  | [] => false
  | EAcquire t' _ _ :: lg' => (t =? t') || held lg' t
  | ERelease t' _ false :: lg' | EFreed t' :: lg' => negb (t =? t') && held lg' t
  | _ :: lg' => held lg' t
  end.
(** The last call of unlock(). *)
Fixpoint last_release (lg : list event) : option (nat * bool) :=
  match lg with
  | [] => None
  | ERelease _ n c :: _ => Some (n, c)
  | _ :: lg' => last_release lg'
  end.
Definition asleep (s : st) (t : nat) : Prop := In t (sleepers s).
(** The thread is in unlock() and has not yet called futex_wake(). *)
Definition waking (s : st) (t : nat) : Prop := pc s t = Store0 \/ pc s t = Wake.
(** The thread is awake in lock(), its next access is value_.exchange( 2). *)
Definition taking (s : st) (t : nat) : Prop := pc s t = Xchg.
(** The thread is in lock(). *)
Definition wants (s : st) (t : nat) : Prop := match pc s t with Load _ | Cas _ | Xchg | Wait | Asleep => True | _ => False end.
