(** Specification for ThChanWeak: what the events have to satisfy. *)
From Coq Require Import List Arith.
From Verif Require Import ThChanWeak.
Import ListNotations.

(** The positions that push() has got, those that value_pop() has got, and those that have been read (newest first). *)
Fixpoint enqs (l : list event) : list nat := match l with [] => [] | EEnq _ i _ _ :: r => i :: enqs r | _ :: r => enqs r end.
Fixpoint claims (l : list event) : list nat := match l with [] => [] | EClaim _ i :: r => i :: claims r | _ :: r => claims r end.
Fixpoint deqs (l : list event) : list nat := match l with [] => [] | EDeq _ i _ _ :: r => i :: deqs r | _ :: r => deqs r end.
(** There is no data race. *)
Definition race_free (l : list event) : Prop := forall t i, ~ In (ERace t i) l.
(** The k-th successful push() has got position k, the k-th successful value_pop() too, there are not more of these, and no position is read twice. *)
Definition in_order (l : list event) : Prop :=
  enqs l = rev (seq 0 (length (enqs l))) /\ claims l = rev (seq 0 (length (claims l))) /\ length (claims l) <= length (enqs l) /\ NoDup (deqs l).
(** What is read at position i by the thread that has got it has been pushed there, and all that the thread of the push() had done before it happens before the return. *)
Definition passed (l : list event) : Prop := forall t i v w, In (EDeq t i v w) l ->
  In (EClaim t i) l /\ exists t' w' l1 l2, l = l1 ++ EEnq t' i v w' :: l2 /\ incl w' w /\ forall n, In (EAct t' n) l2 -> In n w.
