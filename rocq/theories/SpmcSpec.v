(** Specification vocabulary for the lock-free ready queue. *)
From Coq Require Import List Arith Bool.
From Verif Require Import Base Spmc.
Import ListNotations.

(** Element n was given to somebody, how often. *)
Fixpoint takes (lg : list event) (n : nat) : nat :=
  match lg with
  | [] => 0
  | EPop (Some m) :: lg' | ESteal _ (Some m) :: lg' => (if n =? m then 1 else 0) + takes lg' n
  | _ :: lg' => takes lg' n
  end.
Definition pushed (lg : list event) (n : nat) : Prop := In (EPushed n) lg.
(** Number of calls of push(). *)
Fixpoint pushes (lg : list event) : nat :=
  match lg with [] => 0 | EPush _ _ :: lg' => S (pushes lg') | _ :: lg' => pushes lg' end.
(** The owner calls pop() only after it has called push(). *)
Fixpoint push_first (lg : list event) : Prop :=
  match lg with [] => True | ECallPop :: lg' => 0 < pushes lg' /\ push_first lg' | _ :: lg' => push_first lg' end.
(** One call of pop() of the owner, undisturbed, takes at most 5 steps. *)
Definition owner_only (ls : list label) : Prop := forall l, In l ls -> l = Pop \/ l = Own.
