(** Specification for BarrierHb. *)
From Coq Require Import List Arith.
From Verif Require Import BarrierHb.
Import ListNotations.

(** The numbers of the calls, newest first. *)
Fixpoint arrivals (l : list aevent) : list nat := match l with [] => [] | AArr _ k :: r => k :: arrivals r | _ :: r => arrivals r end.
(** Call j has been made, and what its fiber had done before is in w. *)
Definition seen (l : list aevent) (j : nat) (w : list nat) : Prop := exists u l1 l2, l = l1 ++ AArr u j :: l2 /\ forall a, In (AAct u a) l2 -> In a w.
(** When wait() returns, all n calls of the same round have been made, and everything their fibers had done before them happens before the return. *)
Definition all_before (n : nat) (l : list aevent) : Prop :=
  forall l1 t k b w l2, l = l1 ++ ARet t k b w :: l2 -> In (AArr t k) l2 /\ forall j, j / n = k / n -> seen l2 j w.
(** The calls are numbered 0, 1, 2, ... *)
Definition numbered (l : list aevent) : Prop := exists m, arrivals l = rev (seq 0 m).
(** No data race on the members of the barrier. *)
Definition race_free (l : list aevent) : Prop := forall t, ~ In (ARace t) l.
