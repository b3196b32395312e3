(** Specification for C142, over the log of FutThrow.v (newest first). *)
From Coq Require Import List.
From Verif Require Import FutThrow.
Import ListNotations.

Definition satisfied (l : list event) : Prop := exists e, In e l /\ match e with ESet _ | EExc _ => True | _ => False end.
(** The state is satisfied at most once, and promise_already_satisfied means that it has been: a set_value() that fails leaves it as it was. *)
Definition once (l : list event) : Prop :=
  (forall l1 e l2, l = l1 ++ e :: l2 -> match e with ESet _ | EExc _ => True | _ => False end -> ~ satisfied l2) /\
  (forall l1 l2, l = l1 ++ EAlready :: l2 -> satisfied l2).
(** What get() yields is what was set; storage without object is neither read nor destroyed. *)
Definition faithful (l : list event) : Prop :=
  ~ In EGotBad l /\ ~ In EBadDest l /\ (forall v, In (EGot v) l -> In (ESet v) l) /\ (forall x, In (ERethrow x) l -> In (EExc x) l) /\ (forall x, In (EMoveFail x) l -> exists v, In (ESet v) l).
(** Objects in storage_: constructed at most once, destroyed at most once and after the construction; when the state has been freed, what was constructed has been destroyed, and nothing happens any more. *)
Definition clean (l : list event) : Prop :=
  (forall l1 v l2, l = l1 ++ ECons v :: l2 -> ~ exists w, In (ECons w) (l1 ++ l2)) /\
  (forall l1 v l2, l = l1 ++ EDest v :: l2 -> In (ECons v) l2 /\ ~ exists w, In (EDest w) (l1 ++ l2)) /\
  (In EFree l -> (exists l2, l = EFree :: l2 /\ ~ In EFree l2) /\ forall v, In (ECons v) l -> In (EDest v) l).
(** A failed set_value() of a promise after which nothing else is set ends in broken_promise; a function of a packaged_task whose result cannot be stored ends in that exception. *)
Definition broken_only (l : list event) : Prop := In (EExc Broken) l -> forall v, ~ In (ESet v) l.
(** Operations that use up the future: get(), share(), its destruction. *)
Definition consumes (l : label) : Prop := match l with Get _ | Share | DropFut => True | _ => False end.
