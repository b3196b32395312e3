(** Specification vocabulary for the accesses to owner_. *)
From Coq Require Import List Arith Bool.
From Verif Require Import Base OwnerRace.
Import ListNotations.

(** The access to owner_ that the fiber is about to make: Some true is a write. *)
Definition access (p : pc) : option bool := match p with Self _ | Free _ | Again _ => Some false | Write _ => Some true | _ => None end.
(** A data race: two fibers are about to access owner_, one of them writes. *)
Definition race (s : st) (f g : nat) : Prop := f <> g /\ access (fib s f) = Some true /\ exists w, access (fib s g) = Some w.
(** Executions without try_lock(). *)
Inductive no_try : st -> Prop :=
  | n_init : no_try init_state
  | n_step : forall s l s', no_try s -> step s l = Some s' -> (forall f, l <> Call f TryLock) -> no_try s'.
