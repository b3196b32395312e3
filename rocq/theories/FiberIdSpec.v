(** Specification for C140, over the log of FiberId.v (newest first). *)
From Coq Require Import List.
From Verif Require Import FiberId.
Import ListNotations.

(** doc/fiber.qbk:514-521: operator== returns true if both represent the same fiber, or both represent not-a-fiber, false otherwise. *)
Definition ids_identify (l : list event) : Prop := forall x y b, In (ECmp x y b) l -> (b = true <-> x = y).
(** The same for fibers whose contexts still exist when the ids are compared. *)
Definition exists_in (l : list event) (x : option nat) : Prop := forall n, x = Some n -> ~ In (EGone n) l.
Definition ids_of_existing (l : list event) : Prop := forall l1 x y b l2, l = l1 ++ ECmp x y b :: l2 -> exists_in l2 x -> exists_in l2 y -> (b = true <-> x = y).
(** Ids of the same fiber are always equal; the id of a fiber never equals that of not-a-fiber. *)
Definition ids_safe (l : list event) : Prop := forall x y b, In (ECmp x y b) l -> (x = y -> b = true) /\ (b = true -> (x = None <-> y = None)).
(** join() reports a deadlock for the calling fiber itself and for no other; it never waits for itself. *)
Definition join_exact (l : list event) : Prop := (forall n x, In (ESelf n x) l -> x = Some n) /\ (forall n m, In (EJoined n m) l -> n <> m /\ In (ENew m) l).
(** Every fiber has its own name. *)
Definition own_names (l : list event) : Prop := forall n m k, In (EName n m k) l -> n = m.
(** No fiber gets the name of a fiber whose context existed at the time. *)
Definition names_of_gone (l : list event) : Prop := forall l1 n m k l2, l = l1 ++ EName n m k :: l2 -> n = m \/ In (EGone m) l2.
(** A fiber keeps its name, and names that were made for different fibers are different. *)
Definition names_kept (l : list event) : Prop := (forall n m k m' k', In (EName n m k) l -> In (EName n m' k') l -> m = m' /\ k = k') /\ (forall n m n' m' k, In (EName n m k) l -> In (EName n' m' k) l -> m = m').
(** operator< is a strict total order that agrees with operator==; the others are derived from it. *)
Definition total_order : Prop :=
  (forall a, id_lt a a = false) /\ (forall a b c, id_lt a b = true -> id_lt b c = true -> id_lt a c = true) /\
  (forall a b, id_lt a b = true \/ id_eq a b = true \/ id_lt b a = true) /\ (forall a b, id_lt a b = true -> id_eq a b = false) /\
  (forall a b, id_gt a b = id_lt b a /\ id_le a b = negb (id_lt b a) /\ id_ge a b = negb (id_lt a b)).
