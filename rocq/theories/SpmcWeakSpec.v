(** Specification vocabulary for the lock-free ready queue under the C++ memory model (events only). *)
From Coq Require Import List Arith Bool.
From Verif Require Import Base SpmcWeak.
Import ListNotations.

(** Element n was given to somebody, how often. *)
Fixpoint takes (lg : list event) (n : nat) : nat :=
  match lg with
  | [] => 0
  | EPop (Some m) :: lg' | ESteal _ (Some (m, _)) :: lg' => (if n =? m then 1 else 0) + takes lg' n
  | _ :: lg' => takes lg' n
  end.
Definition pushed (lg : list event) (n : nat) : Prop := In (EPushed n) lg.
(** No thief has used an array whose construction does not happen before the access. *)
Definition race_free (lg : list event) : Prop := forall u a, ~ In (EArray u a false) lg.
(** The array was never resized. *)
Definition no_growth (lg : list event) : Prop := ~ In EGrow lg.
