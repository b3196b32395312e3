(** Specification vocabulary for the publish/subscribe server: what subscribers are owed, in terms of the events. *)
From Coq Require Import List Arith Bool.
From Verif Require Import Base PubSub.
Import ListNotations.

(** The queue to which [s] is subscribed after the events [l] (newest first): from its subscription until it unsubscribes or the queue is unregistered. *)
Fixpoint subscribed (s : nat) (l : list event) : option nat :=
  match l with
  | [] => None
  | ESub s' q :: r => if Nat.eqb s' s then Some q else subscribed s r
  | EUnsub s' _ :: r => if Nat.eqb s' s then None else subscribed s r
  | EUnreg _ q :: r => match subscribed s r with Some q' => if Nat.eqb q' q then None else Some q' | None => None end
  | _ :: r => subscribed s r
  end.
(** The messages that [s] has to be given, newest first: those published on its queue while it is subscribed. *)
Fixpoint owed (s : nat) (l : list event) : list msg :=
  match l with
  | [] => []
  | EPub _ q m :: r => match subscribed s r with Some q' => if Nat.eqb q' q then m :: owed s r else owed s r | None => owed s r end
  | EUnreg _ q :: r => match subscribed s r with Some q' => if Nat.eqb q' q then Fini :: owed s r else owed s r | None => owed s r end
  | _ :: r => owed s r
  end.
(** The messages written to the client of [s], newest first. *)
Fixpoint written (s : nat) (l : list event) : list msg :=
  match l with [] => [] | EWrite s' m :: r => if Nat.eqb s' s then m :: written s r else written s r | _ :: r => written s r end.
(** [subseq a b]: [a] is [b] with elements left out. *)
Inductive subseq : list msg -> list msg -> Prop :=
  | sub_nil : subseq [] []
  | sub_keep : forall m a b, subseq a b -> subseq (m :: a) (m :: b)
  | sub_skip : forall m a b, subseq a b -> subseq a (m :: b).
(** A publisher does something. *)
Definition publishes (l : label) : bool := match l with POpen _ _ | PFail _ | PMsg _ _ | PClose _ => true | _ => false end.
(** No subscriber is about to read or write a message. *)
Definition calm (t : st) : Prop := forall s, match subs t s with SReady | SWrite _ => False | _ => True end.
(** Executions in which publishers do something only if no subscriber is busy. *)
Inductive paced : st -> Prop :=
  | paced_init : paced init_state
  | paced_step : forall t l t', paced t -> (publishes l = true -> calm t) -> step t l = Some t' -> paced t'.
(** Executions in which every publisher uses a name that is not empty and that no connected publisher uses. *)
Inductive distinct : st -> Prop :=
  | distinct_init : distinct init_state
  | distinct_step : forall t l t', distinct t -> (forall p q, l = POpen p q -> q <> 0 /\ forall p', pubs t p' = PRun -> pq t p' <> q) -> step t l = Some t' -> distinct t'.
