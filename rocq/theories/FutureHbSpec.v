(** Specification for FutureHb. *)
From Coq Require Import List.
From Verif Require Import FutureHb.
Import ListNotations.

(** r has been stored, and everything the fiber that did it had done before is in w. *)
Definition stored (l : list fevent) (r : res) (w : list nat) : Prop := exists u l1 l2, l = l1 ++ FSet u r :: l2 /\ forall a, In (FAct u a) l2 -> In a w.
(** Who gets a result, or is told that it is ready, or is told that the promise is satisfied already: the result has been stored before; for the first two it happens before. *)
Definition passed (l : list fevent) : Prop :=
  (forall l1 t r w l2, l = l1 ++ FGot t r w :: l2 -> stored l2 r w) /\
  (forall l1 t w l2, l = l1 ++ FReady t w :: l2 -> exists r, stored l2 r w) /\
  (forall l1 t l2, l = l1 ++ FThrow t :: l2 -> exists u r, In (FSet u r) l2).
(** The results that have been stored. *)
Fixpoint results (l : list fevent) : list res := match l with [] => [] | FSet _ r :: k => r :: results k | _ :: k => results k end.
Definition once (l : list fevent) : Prop := length (results l) <= 1.
(** No data race on the members of the shared state. *)
Definition race_free (l : list fevent) : Prop := forall t, ~ In (FRace t) l.
