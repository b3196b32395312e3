(** Specification vocabulary for the buffered channel: everything is read off the log of calls and
    returns (newest event first). *)
From Coq Require Import List Arith Bool.
From Verif Require Import Base Kernel Buffered.
Import ListNotations.

Section Spec.
Context {V : Type}.

(** The value this return put into the channel / took out of it, according to its result. *)
Definition put_of (e : event V) : list V :=
  match e with
  | ERet _ (Push v) (RStatus Success) _ | ERet _ (TryPush v) (RStatus Success) _
  | ERet _ (PushUntil v _) (RStatus Success) _ => [v]
  | _ => []
  end.
Definition got_of (e : event V) : list (option V) :=
  match e with ERet _ _ (RValue x) _ => [x] | _ => [] end.

(** Values accepted from producers / handed to consumers, oldest first. *)
Definition accepted (h : list (event V)) : list V := flat_map put_of (rev h).
Definition delivered (h : list (event V)) : list (option V) := flat_map got_of (rev h).
(** How many values the channel holds. *)
Definition stored (h : list (event V)) : nat := length (accepted h) - length (delivered h).
(** close() has returned. *)
Definition was_closed (h : list (event V)) : Prop := exists f at_, In (ERet f Close RVoid at_) h.

(** The call of fiber [f] that has not returned yet. *)
Fixpoint pending (h : list (event V)) (f : fid) : option (op V) :=
  match h with
  | [] => None
  | ECall g o :: h' => if Nat.eqb g f then Some o else pending h' f
  | ERet g _ _ _ :: h' => if Nat.eqb g f then None else pending h' f
  end.

Definition is_push (o : op V) : Prop :=
  match o with Push _ | TryPush _ | PushUntil _ _ => True | _ => False end.
Definition is_pop (o : op V) : Prop :=
  match o with Pop | TryPop | ValuePop | PopUntil _ => True | _ => False end.

(** What a call on a channel of capacity [cap] may return after history [h], at clock value [t].
    RExn: an exception of the copy or move operation of the value type; it comes only where the call
    would have transferred a value. *)
Definition ret_ok (cap : nat) (h : list (event V)) (o : op V) (r : res V) (t : nat) : Prop :=
  match o with
  | Push _ => ((r = RStatus Success \/ r = RExn) /\ ~ was_closed h /\ stored h < cap - 1) \/ (r = RStatus Closed /\ was_closed h)
  | TryPush _ => ((r = RStatus Success \/ r = RExn) /\ ~ was_closed h /\ stored h < cap - 1) \/ (r = RStatus Closed /\ was_closed h) \/
                 (r = RStatus Full /\ ~ was_closed h /\ stored h = cap - 1)
  | PushUntil _ tp => ((r = RStatus Success \/ r = RExn) /\ ~ was_closed h /\ stored h < cap - 1) \/ (r = RStatus Closed /\ was_closed h) \/
                      (r = RStatus Timeout /\ tp <= t)
  | Pop => (((exists x, r = RValue x) \/ r = RExn) /\ 0 < stored h) \/ (r = RStatus Closed /\ was_closed h /\ stored h = 0)
  | ValuePop => (((exists x, r = RValue x) \/ r = RExn) /\ 0 < stored h) \/ (r = RThrow /\ was_closed h /\ stored h = 0)
  | TryPop => (((exists x, r = RValue x) \/ r = RExn) /\ 0 < stored h) \/ (r = RStatus Closed /\ was_closed h /\ stored h = 0) \/
              (r = RStatus Empty /\ ~ was_closed h /\ stored h = 0)
  | PopUntil tp => (((exists x, r = RValue x) \/ r = RExn) /\ 0 < stored h) \/ (r = RStatus Closed /\ was_closed h /\ stored h = 0) \/
                   (r = RStatus Timeout /\ tp <= t)
  | Close => r = RVoid
  | IsClosed => exists b, r = RBool b /\ (b = true <-> was_closed h)
  end.

(** No operation has reported a timeout. *)
Definition no_timeout (h : list (event V)) : Prop := forall f o t, ~ In (ERet f o (RStatus Timeout) t) h.
(** The operations that may wait. *)
Definition may_wait (o : op V) : Prop :=
  match o with Push _ | PushUntil _ _ | Pop | ValuePop | PopUntil _ => True | _ => False end.
(** No copy or move of a value has thrown in an operation that may wait. *)
Definition no_exception (h : list (event V)) : Prop := forall f o t, may_wait o -> ~ In (ERet f o RExn t) h.
(** No timed operation has been called. *)
Definition untimed (h : list (event V)) : Prop :=
  forall f, (forall v tp, ~ In (ECall f (PushUntil v tp)) h) /\ (forall tp, ~ In (ECall f (PopUntil tp)) h).

(** At least [n] fibers are runnable and in a call that satisfies [P]. *)
Definition runnable_in (k : kern) (h : list (event V)) (P : op V -> Prop) (n : nat) : Prop :=
  exists l, NoDup l /\ length l = n /\
    forall g, In g l -> runnable k g /\ exists o, pending h g = Some o /\ P o.
End Spec.
