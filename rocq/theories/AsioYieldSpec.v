(** Specification for waiting for asynchronous operations (C99): each event is justified by older ones. *)
From Coq Require Import List Arith.
From Verif Require Import AsioYield.
Import ListNotations.

(** What the caller gets when the handler was called with ec and v. *)
Definition delivered (b : bool) (ec v : nat) : result :=
  match b, ec with true, _ => RValue v ec | false, 0 => RValue v 0 | false, _ => RThrow ec end.
Definition justified (e : event) (old : list event) : Prop :=
  match e with
  | EStart f n b => forall g c, ~ In (EStart g n c) old
  | EInvoke n ec v => (exists f b, In (EStart f n b) old) /\ forall ec' v', ~ In (EInvoke n ec' v') old
  | ESuspend f n => (exists b, In (EStart f n b) old) /\ (forall g, ~ In (ESuspend g n) old) /\ (forall g r, ~ In (EReturn g n r) old)
  | EWake n => (exists f, In (ESuspend f n) old) /\ ~ In (EWake n) old /\ exists ec v, In (EInvoke n ec v) old
  | EReturn f n r =>
      (exists b ec v, In (EStart f n b) old /\ In (EInvoke n ec v) old /\ r = delivered b ec v) /\
      (forall g r', ~ In (EReturn g n r') old) /\ (In (ESuspend f n) old -> In (EWake n) old)
  | EDelete n => (exists f r, In (EReturn f n r) old) /\ ~ In (EDelete n) old
  | EDangling _ | EBadWake _ => False
  end.
Fixpoint legal (l : list event) : Prop := match l with [] => True | e :: old => justified e old /\ legal old end.
