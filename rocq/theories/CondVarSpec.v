(** Specification vocabulary for the condition variable: computed from the log only (newest event first). *)
From Coq Require Import List Arith Bool.
From Verif Require Import Base Kernel CondVar.
Import ListNotations.

(** Returns that leave the caller owning the mutex. *)
Definition acquires (o : op) (r : res) : bool :=
  match o, r with
  | Lock, ROk => true
  | Wait, ROk => true
  | WaitUntil _, ROk => true
  | WaitUntil _, RTimeout => true
  | _, _ => false
  end.

(** Calls that give the mutex up. *)
Definition leaves (o : op) : bool :=
  match o with Unlock | Wait | WaitUntil _ => true | _ => false end.

Definition is_wait (o : op) : bool := match o with Wait | WaitUntil _ => true | _ => false end.

(** Fiber [f] is in its critical section: between a return that acquires and a call that gives up. *)
Fixpoint inside (h : list event) (f : fid) : bool :=
  match h with
  | [] => false
  | ERet g o r _ :: h' => if Nat.eqb g f && acquires o r then true else inside h' f
  | ECall g o :: h' => if Nat.eqb g f && leaves o then false else inside h' f
  | EWake _ _ :: h' => inside h' f
  end.

(** The call of fiber [f] that has not returned yet. *)
Fixpoint pending (h : list event) (f : fid) : option op :=
  match h with
  | [] => None
  | ECall g o :: h' => if Nat.eqb g f then Some o else pending h' f
  | ERet g _ _ _ :: h' => if Nat.eqb g f then None else pending h' f
  | EWake _ _ :: h' => pending h' f
  end.

(** Since its last call, fiber [f] has been made ready by a notification. *)
Fixpoint woken (h : list event) (f : fid) : bool :=
  match h with
  | [] => false
  | ECall g _ :: h' => if Nat.eqb g f then false else woken h' f
  | EWake _ g :: h' => if Nat.eqb g f then true else woken h' f
  | ERet _ _ _ _ :: h' => woken h' f
  end.

(** Since its last call, fiber [g] has made some fiber ready by a notification. *)
Fixpoint used (h : list event) (g : fid) : bool :=
  match h with
  | [] => false
  | ECall x _ :: h' => if Nat.eqb x g then false else used h' g
  | EWake x _ :: h' => if Nat.eqb x g then true else used h' g
  | ERet _ _ _ _ :: h' => used h' g
  end.

(** Fiber [f] was in its critical section when it made its last call. *)
Fixpoint called_inside (h : list event) (f : fid) : bool :=
  match h with
  | [] => false
  | ECall g _ :: h' => if Nat.eqb g f then inside h' f else called_inside h' f
  | _ :: h' => called_inside h' f
  end.

(** Since the last call of [f], another fiber has acquired the mutex. *)
Fixpoint since_acq (h : list event) (f : fid) : bool :=
  match h with
  | [] => false
  | ECall g _ :: h' => if Nat.eqb g f then false else since_acq h' f
  | ERet g o r _ :: h' => if negb (Nat.eqb g f) && acquires o r then true else since_acq h' f
  | EWake _ _ :: h' => since_acq h' f
  end.

(** The last call of [g] was made after another fiber had acquired the mutex since the last call of [f]. *)
Fixpoint after_acq (h : list event) (f g : fid) : bool :=
  match h with
  | [] => false
  | ECall x _ :: h' => if Nat.eqb x g then since_acq h' f
                       else if Nat.eqb x f then false else after_acq h' f g
  | _ :: h' => after_acq h' f g
  end.

Definition deadline_passed (o : op) (a : nat) : Prop :=
  match o with WaitUntil tp => tp <= a | _ => False end.

(** What every execution has to satisfy, event by event.
    - A wake-up is caused by a pending notify_one (at most one wake-up per call) or notify_all, and hits a fiber that is inside wait()/wait_until() and has not been woken since it called it.
    - wait() returns only after a wake-up; wait_until() returns no_timeout only after a wake-up and timeout only when the clock has reached the deadline.
    - When notify_all() returns, every fiber that gave up the mutex in wait() such that somebody acquired the mutex afterwards and before notify_all() was called, has been woken (or its deadline has passed); when notify_one() returns, it has been woken or the notification woke another waiting fiber. *)
Fixpoint cv_ok (h : list event) : Prop :=
  match h with
  | [] => True
  | ECall _ _ :: h' => cv_ok h'
  | EWake g f :: h' =>
      ((pending h' g = Some NotifyOne /\ used h' g = false) \/ pending h' g = Some NotifyAll) /\
      (exists o, pending h' f = Some o /\ is_wait o = true) /\ woken h' f = false /\ cv_ok h'
  | ERet g o r a :: h' =>
      match o with
      | Wait => (r = ROk /\ woken h' g = true) \/ (r = RErr /\ called_inside h' g = false)
      | WaitUntil tp => (r = ROk /\ woken h' g = true) \/ (r = RTimeout /\ tp <= a) \/
                        (r = RErr /\ called_inside h' g = false)
      | NotifyAll => r = ROk /\ forall f o', f <> g -> pending h' f = Some o' -> is_wait o' = true ->
          called_inside h' f = true -> after_acq h' f g = true ->
          woken h' f = true \/ deadline_passed o' a
      | NotifyOne => r = ROk /\ forall f o', f <> g -> pending h' f = Some o' -> is_wait o' = true ->
          called_inside h' f = true -> after_acq h' f g = true ->
          woken h' f = true \/ deadline_passed o' a \/ used h' g = true
      | _ => True
      end /\ cv_ok h'
  end.
