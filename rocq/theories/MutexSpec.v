(** Specification vocabulary for the mutexes: everything is computed from the
    log of calls and returns (newest event first) alone. *)
From Coq Require Import List Arith Bool.
From Verif Require Import Base Kernel Mutex.
Import ListNotations.

(** Did this return hand the mutex to the caller? *)
Definition acquired (o : op) (r : res) : bool :=
  match o, r with
  | Lock, ROk => true
  | TryLock, RBool true => true
  | TryLockUntil _, RBool true => true
  | _, _ => false
  end.

(** Nesting depth of the critical section of fiber [f]: entered when an acquisition
    returns, left as soon as unlock() is called. *)
Fixpoint inside (h : list event) (f : fid) : nat :=
  match h with
  | [] => 0
  | ERet g o r _ :: h' => if Nat.eqb g f && acquired o r then S (inside h' f) else inside h' f
  | ECall g Unlock :: h' => if Nat.eqb g f then pred (inside h' f) else inside h' f
  | ECall _ _ :: h' => inside h' f
  end.

(** Number of successful acquisitions not yet undone by a successful unlock() return. *)
Fixpoint owned (h : list event) (f : fid) : nat :=
  match h with
  | [] => 0
  | ERet g o r _ :: h' =>
      if Nat.eqb g f then
        if acquired o r then S (owned h' f)
        else match o, r with Unlock, ROk => pred (owned h' f) | _, _ => owned h' f end
      else owned h' f
  | ECall _ _ :: h' => owned h' f
  end.

(** The call of fiber [f] that has not returned yet. *)
Fixpoint pending (h : list event) (f : fid) : option op :=
  match h with
  | [] => None
  | ECall g o :: h' => if Nat.eqb g f then Some o else pending h' f
  | ERet g _ _ _ :: h' => if Nat.eqb g f then None else pending h' f
  end.

(** What a call may return, given the log before the return.
    [h] is that log, [at_] the clock at the return. *)
Definition ret_ok (mk : mkind) (h : list event) (f : fid) (o : op) (r : res) (at_ : nat) : Prop :=
  match o with
  | Unlock => (owned h f = 0 /\ r = RErr ENotPermitted) \/ (owned h f > 0 /\ r = ROk)
  | Lock => if recursive mk then r = ROk
            else (owned h f > 0 /\ r = RErr EDeadlock) \/ (owned h f = 0 /\ r = ROk)
  | TryLock => if recursive mk then r = RBool true \/ (r = RBool false /\ owned h f = 0)
               else (owned h f > 0 /\ r = RErr EDeadlock) \/ (owned h f = 0 /\ exists b, r = RBool b)
  | TryLockUntil tp => r = RBool true \/ (r = RBool false /\ tp <= at_)
  end.

(** No timed acquisition has reported failure. *)
Definition no_timed_failure (h : list event) : Prop :=
  forall f tp at_, ~ In (ERet f (TryLockUntil tp) (RBool false) at_) h.
