(** Specification vocabulary for deadlines. *)
From Coq Require Import ZArith.
From Verif Require Import Deadline.
Local Open Scope Z_scope.

(** A clock that runs with the steady clock: at steady time r it shows the number of whole units since its epoch, [off] nanoseconds before steady time 0. *)
Definition reads (off uC r : Z) : Z := (r + off) / uC.
(** At steady time r the time point T (in units of uT) has not been reached on that clock. *)
Definition before (off r T uT : Z) : Prop := r + off < T * uT.
