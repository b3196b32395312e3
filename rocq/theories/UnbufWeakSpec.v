(** Specification for UnbufWeak. *)
From Coq Require Import List Arith.
From Verif Require Import UnbufWeak.
Import ListNotations.

(** The last event of a push() of p: the call, the value is received, or the return. *)
Fixpoint last_of (p : nat) (l : list event) : option event :=
  match l with
  | [] => None
  | EPush q v w :: r => if p =? q then Some (EPush q v w) else last_of p r
  | EGot c q v w :: r => if p =? q then Some (EGot c q v w) else last_of p r
  | EOk q w :: r => if p =? q then Some (EOk q w) else last_of p r
  | _ :: r => last_of p r
  end.
(** Every value is received once, between the call and the return of its push(), which returns only afterwards. What the producer had done before the call happens before the return of pop(), and what the consumer had done before pop() happens before the return of push(). *)
Fixpoint sync (l : list event) : Prop :=
  match l with
  | [] => True
  | EPush p v w :: r => (last_of p r = None \/ exists w', last_of p r = Some (EOk p w')) /\ (forall n, In (EAct p n) r -> In n w) /\ sync r
  | EGot c p v w :: r => (exists w', last_of p r = Some (EPush p v w') /\ incl w' w) /\ (forall n, In (EAct c n) r -> In n w) /\ sync r
  | EOk p w :: r => (exists c v w', last_of p r = Some (EGot c p v w') /\ incl w' w) /\ sync r
  | _ :: r => sync r
  end.
(** There is no data race on a slot. *)
Definition race_free (l : list event) : Prop := forall t p, ~ In (ERace t p) l.
(** A fiber waits in push() or in pop() and nobody has woken it. *)
Definition producer_waits (s : st) (t : nat) : Prop := woke s t = None /\ exists v, pc s t = PSusp v \/ pc s t = PWait v.
Definition consumer_waits (s : st) (t : nat) : Prop := woke s t = None /\ pc s t = CWait.
(** No operation can go on. *)
Definition quiet (s : st) : Prop := forall t, pc s t = Idle \/ producer_waits s t \/ consumer_waits s t.
