(** Specification vocabulary for wait queues: computed from the event log only. *)
From Coq Require Import List Arith Bool.
From Verif Require Import Base Kernel WaitQueue.
Import ListNotations.

(** Fibers blocked on queue [i], longest waiting first. *)
Fixpoint waiting (h : list event) (i : nat) : list fid :=
  match h with
  | [] => []
  | EBlock f j _ :: h' => if Nat.eqb j i then waiting h' i ++ [f] else waiting h' i
  | EReady f _ _ :: h' => filter (fun g => negb (Nat.eqb g f)) (waiting h' i)
  | ELeave _ _ _ :: h' => waiting h' i
  end.

(** What fiber [f] is doing, according to its own last event. *)
Inductive status := Active | Blocked (i : nat) (tp : option nat) | Ready (i : nat) (tp : option nat) (src : source).
Fixpoint stat (h : list event) (f : fid) : status :=
  match h with
  | [] => Active
  | EBlock g i tp :: h' => if Nat.eqb g f then Blocked i tp else stat h' f
  | EReady g src _ :: h' =>
      if Nat.eqb g f then match stat h' f with Blocked i tp => Ready i tp src | st => st end else stat h' f
  | ELeave g _ _ :: h' => if Nat.eqb g f then Active else stat h' f
  end.

(** One wake-up per wait: a fiber blocks only when active; it is made ready only when blocked, by a
    notification of the queue it is blocked on, or by the timer when it has a deadline that
    has been reached; it returns only after having been made ready. A timeout
    is only reported when the deadline has passed, otherwise true is returned, and then a notification came. *)
Fixpoint discipline (h : list event) : Prop :=
  match h with
  | [] => True
  | EBlock f i tp :: h' => stat h' f = Active /\ discipline h'
  | EReady f src a :: h' =>
      (exists i tp, stat h' f = Blocked i tp /\
         match src with ByNotify j => j = i | ByTimer => exists t, tp = Some t /\ t <= a end) /\ discipline h'
  | ELeave f b a :: h' =>
      (exists i tp src, stat h' f = Ready i tp src /\
         (if b then exists j, src = ByNotify j else exists t, tp = Some t /\ t <= a)) /\ discipline h'
  end.
