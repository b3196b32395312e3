(** Specification vocabulary for the lifetime of a promise. *)
From Coq Require Import List Arith Bool.
From Verif Require Import Base PromLife.
Import ListNotations.

(** The promise is destroyed only by a fiber in which get() or set_value() has returned. *)
Definition after_get (l : list event) : Prop := forall a b g, l = a ++ EDestroy g :: b -> In (EGot g) b \/ In ESetDone b.
(** The promise is destroyed by fiber 0 itself (it was moved into the function that calls set_value()). *)
Definition by_setter (l : list event) : Prop := forall g, In (EDestroy g) l -> g = 0.
(** No destroyed object is accessed. *)
Definition safe (l : list event) : Prop := forall f, ~ In (EBad f) l.
