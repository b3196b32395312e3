(** Specification vocabulary for C143, read off the log. *)
From Coq Require Import List Arith Bool.
From Verif Require Import Base Lasso Kernel Unbuffered UnbufferedSpec UnbufFair.
Import ListNotations.

(** The number of values a fiber has received. *)
Definition received {V} (h : list (event V)) (f : fid) : nat := length (got h f).
(** The fiber an event belongs to. *)
Definition caller {V} (e : event V) : fid := match e with ECall f _ => f | ERet f _ _ _ => f | EXfer f _ _ => f end.
(** On one thread with round_robin: the fibers [fs] run without end, each of them again and again, fiber [c] receives values without end, and yet from some moment on the call [o] of fiber [f] is pending for ever. *)
Definition starved {V} (fs : list fid) (c f : fid) (o : op V) : Prop :=
  exists sch st k, infinite (rstep fs) (rinit fs) sch st /\
  (forall g, In g fs -> always_again (fun i => sch i = LRun g)) /\
  (forall n, exists i, received (log (ust (st i))) c >= n) /\
  (forall i, k <= i -> pending (log (ust (st i))) f = Some o).
