(** Specification vocabulary for the unbuffered channel, read off the log (newest event first). *)
From Coq Require Import List Arith Bool.
From Verif Require Import Base Kernel Unbuffered.
Import ListNotations.

Section Spec.
Context {V : Type}.

Definition is_push (o : op V) : Prop := match o with Push _ | PushUntil _ _ => True | _ => False end.
Definition is_pop (o : op V) : Prop := match o with Pop | ValuePop | PopUntil _ => True | _ => False end.

(** The call of fiber [f] that has not returned yet. *)
Fixpoint pending (h : list (event V)) (f : fid) : option (op V) :=
  match h with
  | [] => None
  | ECall g o :: h' => if Nat.eqb g f then Some o else pending h' f
  | ERet g _ _ _ :: h' => if Nat.eqb g f then None else pending h' f
  | EXfer _ _ _ :: h' => pending h' f
  end.

(** The number of push calls made by [f] so far. *)
Fixpoint npush (h : list (event V)) (f : fid) : nat :=
  match h with
  | ECall g (Push _) :: h' | ECall g (PushUntil _ _) :: h' => if Nat.eqb g f then S (npush h' f) else npush h' f
  | _ :: h' => npush h' f
  | [] => 0
  end.

(** The [n]-th push call of [f] was made with value [v]. *)
Definition pushed (h : list (event V)) (f : fid) (n : nat) (v : V) : Prop :=
  exists h1 h2 o, h = h2 ++ ECall f o :: h1 /\ n = S (npush h1 f) /\ (o = Push v \/ exists tp, o = PushUntil v tp).

(** The push calls whose value was moved to a consumer. *)
Definition consumed (h : list (event V)) : list sptr :=
  flat_map (fun e => match e with EXfer _ p _ => [p] | _ => [] end) h.
(** The values moved to consumer [c] / returned to [c] by its pop calls, newest first. *)
Definition taken (h : list (event V)) (c : fid) : list (option V) :=
  flat_map (fun e => match e with EXfer g _ x => if Nat.eqb g c then [x] else [] | _ => [] end) h.
Definition got (h : list (event V)) (c : fid) : list (option V) :=
  flat_map (fun e => match e with ERet g _ (RValue x) _ => if Nat.eqb g c then [x] else [] | _ => [] end) h.

(** close() has returned; close() has never been called. *)
Definition was_closed (h : list (event V)) : Prop := exists f t, In (ERet f Close RVoid t) h.
Definition never_closed (h : list (event V)) : Prop := forall f, ~ In (ECall f Close) h.
(** No operation / no push has reported a timeout; no timed operation was called. *)
Definition no_timeout (h : list (event V)) : Prop := forall f o t, ~ In (ERet f o (RStatus Timeout) t) h.
Definition no_push_timeout (h : list (event V)) : Prop := forall f v tp t, ~ In (ERet f (PushUntil v tp) (RStatus Timeout) t) h.
Definition untimed (h : list (event V)) : Prop :=
  forall f, (forall v tp, ~ In (ECall f (PushUntil v tp)) h) /\ (forall tp, ~ In (ECall f (PopUntil tp)) h).
End Spec.
