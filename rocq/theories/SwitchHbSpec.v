(** Specification for C138, over the log of SwitchHb.v. *)
From Coq Require Import List Arith.
From Verif Require Import SwitchHb.
Import ListNotations.

(** e is an event of context c, and w are the actions that happen before it, itself included. *)
Definition at_ (e : event) (c : ctx) (w : list nat) : Prop := match e with
  | EAct d _ v | EEnd d v | EJoined d _ v => d = c /\ v = w
  | ECreate d g v | EWake d g v => (d = c \/ g = c) /\ v = w
  | _ => False end.
(** The events of a fiber, its creation and its wakeups are totally ordered by happens-before, in whatever threads they take place. *)
Definition in_order (l : list event) : Prop := forall l1 e l2 c w, l = l1 ++ e :: l2 -> at_ e c w -> forall e' w', In e' l2 -> at_ e' c w' -> incl w' w.
(** Actions have different numbers and are in their own view. *)
Definition acts (l : list event) : list nat := flat_map (fun e => match e with EAct _ n _ => [n] | _ => [] end) l.
Definition numbered (l : list event) : Prop := NoDup (acts l) /\ forall c n w, In (EAct c n w) l -> In n w.
(** When join() returns, the fiber has ended; its end and all its actions happen before. *)
Definition join_complete (l : list event) : Prop := forall l1 c g w l2, l = l1 ++ EJoined c g w :: l2 ->
  (exists w', In (EEnd g w') l2 /\ incl w' w) /\ forall n v, In (EAct g n v) l -> In n w.
(** No data race on the members of a context, and a fiber that is woken has a scheduler. *)
Definition clean (l : list event) : Prop := forall e, In e l -> match e with ERace _ _ | EBad _ => False | _ => True end.
