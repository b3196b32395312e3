(** Specification vocabulary for spinlocks (TTAS). *)
From Coq Require Import List Arith Bool.
From Verif Require Import Base Ttas.
Import ListNotations.

(** The threads between lock()/successful try_lock() and unlock(), according to the record, with the number of their critical section. *)
Fixpoint inside (lg : list event) (t : nat) : option nat :=
  match lg with
  | [] => None
  | EAcquire t' n _ :: lg' => if t =? t' then Some n else inside lg' t
  | ERelease t' _ :: lg' => if t =? t' then None else inside lg' t
  | ETryFail _ :: lg' => inside lg' t
  end.
(** A thread is inside lock(). *)
Definition wants (s : st) (t : nat) : Prop := pc s t = Test \/ pc s t = Xchg.
