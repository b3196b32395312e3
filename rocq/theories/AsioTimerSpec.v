(** Specification vocabulary for the timer of the Asio scheduler, over the log (newest event first) alone. *)
From Coq Require Import List Arith Bool.
From Verif Require Import Base AsioTimer.
Import ListNotations.

(** The member function of the timer that thread [i] is executing. *)
Fixpoint inside (h : list event) (i : tid) : option top :=
  match h with
  | [] => None
  | EBegin j o :: h' => if i =? j then Some o else inside h' i
  | EEnd j _ :: h' => if i =? j then None else inside h' i
  | _ :: h' => inside h' i
  end.
(** Two threads inside member functions of the same timer object: Boost.Asio documents this as unsafe. *)
Definition overlap (h : list event) : Prop := exists i j, i <> j /\ inside h i <> None /\ inside h j <> None.
(** No thread has woken a fiber of another thread. *)
Definition local_only (h : list event) : Prop := forall i, ~ In (ECallNotify i) h.
(** The last call of suspend_until() has returned: its time and its wait. *)
Fixpoint last_suspend (h : list event) : option (nat * wid) :=
  match h with
  | [] => None
  | ERetSuspend t w :: _ => Some (t, w)
  | ECallSuspend _ :: _ => None
  | _ :: h' => last_suspend h'
  end.
(** The handlers that have become ready. *)
Fixpoint handlers (h : list event) : list wid :=
  match h with [] => [] | EHandler w :: h' => w :: handlers h' | _ :: h' => handlers h' end.
(** The waits that have been started. *)
Fixpoint started (h : list event) : list wid :=
  match h with [] => [] | EEnd _ (TWait w) :: h' => w :: started h' | _ :: h' => started h' end.
(** The waits of the calls of notify() and suspend_until() that have returned. *)
Fixpoint returned (h : list event) : list wid :=
  match h with [] => [] | ERetSuspend _ w :: h' | ERetNotify _ w :: h' => w :: returned h' | _ :: h' => returned h' end.
