(** Specification vocabulary for the lifetime of a condition variable. *)
From Coq Require Import List Arith Bool.
From Verif Require Import Base CvLife.
Import ListNotations.

(** In the log: f has called wait() and not returned, and no notification since then was for it: no notify_all() at all, no notify_one() that reached f. *)
Fixpoint unnotified (l : list event) (f : nat) : bool :=
  match l with
  | [] => false
  | EWait d _ :: r => if Nat.eqb d f then true else unnotified r f
  | EReturn d _ :: r => if Nat.eqb d f then false else unnotified r f
  | EWoken d :: r => if Nat.eqb d f then false else unnotified r f
  | ENotifyAll _ :: r => false
  | _ :: r => unnotified r f
  end.
(** f is in wait_until(). *)
Fixpoint in_timed (l : list event) (f : nat) : bool :=
  match l with
  | [] => false
  | EWait d t :: r => if Nat.eqb d f then t else in_timed r f
  | EReturn d _ :: r => if Nat.eqb d f then false else in_timed r f
  | _ :: r => in_timed r f
  end.
Definition call (e : event) : Prop := match e with EWait _ _ | ENotifyAll _ | ENotifyOne _ => True | _ => False end.
(** The precondition of the destructor (doc/condition_variables.qbk:215-217), and no call begins after the destruction. *)
Definition proper (l : list event) : Prop :=
  forall a b g, l = a ++ EDestroy g :: b -> (forall f, unnotified b f = false) /\ (forall e, In e a -> ~ call e).
(** In addition: nobody is in wait_until() at that time. *)
Definition no_timed (l : list event) : Prop := forall a b g, l = a ++ EDestroy g :: b -> forall f, in_timed b f = false.
(** The destroyed object is not accessed, and the assertion of the destructor holds. *)
Definition safe (l : list event) : Prop := (forall f, ~ In (EBad f) l) /\ ~ In EAssert l.
