(** Specification for MutexHb. *)
From Coq Require Import List.
From Verif Require Import MutexHb.
Import ListNotations.

(** In the log l the action n of u is followed by a release of the mutex by u. *)
Definition released (u n : nat) (l : list event) : Prop := exists l1 l2, l = l1 ++ ERel u :: l2 /\ In (EAct u n) l2.
(** Whatever a fiber has done before it gave up the mutex happens before every later acquisition. *)
Definition synchronizes (l : list event) : Prop :=
  forall l1 t w l2, l = l1 ++ EAcq t w :: l2 -> (forall u n, released u n l2 -> In n w) /\ (forall n, In (EAct t n) l2 -> In n w).
(** No access to the protected data is part of a data race. *)
Definition race_free (l : list event) : Prop := forall t, ~ In (ERace t) l.
(** The ownership that the log shows. *)
Fixpoint holder (l : list event) : option nat :=
  match l with [] => None | EAcq t _ :: _ => Some t | ERel _ :: _ => None | _ :: r => holder r end.
(** It is acquired only when nobody has it, given up by the fiber that has it, and only this one accesses the data. *)
Fixpoint exclusive (l : list event) : Prop :=
  match l with
  | [] => True
  | EAcq t _ :: r => holder r = None /\ exclusive r
  | ERel t :: r => holder r = Some t /\ exclusive r
  | ETouch t :: r => holder r = Some t /\ exclusive r
  | _ :: r => exclusive r
  end.
