(** Specification vocabulary for the barrier, computed from the log (newest first): calls of wait(), returns, and
    arrivals (the moment a call is counted). *)
From Coq Require Import List Arith Bool.
From Verif Require Import Base Kernel Client Barrier.
Import ListNotations.

Notation bevent := (cevent unit bres bx).

Fixpoint calls (h : list bevent) : nat :=
  match h with [] => 0 | CCall _ _ :: h' => S (calls h') | _ :: h' => calls h' end.
Fixpoint returns (h : list bevent) : nat :=
  match h with [] => 0 | CRet _ _ _ :: h' => S (returns h') | _ :: h' => returns h' end.
Fixpoint trues (h : list bevent) : nat :=
  match h with [] => 0 | CRet _ (RB true) _ :: h' => S (trues h') | _ :: h' => trues h' end.
Fixpoint arrivals (h : list bevent) : nat :=
  match h with [] => 0 | CX _ _ :: h' => S (arrivals h') | _ :: h' => arrivals h' end.

(** Fiber [f] is inside wait(). *)
Fixpoint in_wait (h : list bevent) (f : fid) : bool :=
  match h with
  | [] => false
  | CCall g _ :: h' => if Nat.eqb g f then true else in_wait h' f
  | CRet g _ _ :: h' => if Nat.eqb g f then false else in_wait h' f
  | CX _ _ :: h' => in_wait h' f
  end.

(** The number (from 0 on) of the current call of fiber [f] in the order of arrival; the call is in round ticket/n. *)
Fixpoint ticket (h : list bevent) (f : fid) : option nat :=
  match h with
  | [] => None
  | CCall g _ :: h' => if Nat.eqb g f then None else ticket h' f
  | CRet g _ _ :: h' => if Nat.eqb g f then None else ticket h' f
  | CX g _ :: h' => if Nat.eqb g f then Some (arrivals h') else ticket h' f
  end.

(** Every execution: a call arrives at most once; it returns only when the n calls of its round have arrived, with
    true exactly for the last one to arrive. *)
Fixpoint barrier_ok (n : nat) (h : list bevent) : Prop :=
  match h with
  | [] => True
  | CCall f _ :: h' => in_wait h' f = false /\ barrier_ok n h'
  | CX f _ :: h' => in_wait h' f = true /\ ticket h' f = None /\ barrier_ok n h'
  | CRet f r _ :: h' =>
      (exists t, ticket h' f = Some t /\ n * (t / n + 1) <= arrivals h' /\
                 r = RB (Nat.eqb (t mod n) (n - 1))) /\ in_wait h' f = true /\ barrier_ok n h'
  end.
