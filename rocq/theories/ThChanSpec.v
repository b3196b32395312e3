(** Specification for C122 and C123: a FIFO queue of bounded length, as an automaton that reads the events of the channel (independent of the indices and slots of the model). *)
From Coq Require Import List Arith Bool.
From Verif Require Import Base ThChan.
Import ListNotations.

(** What a thread is doing: [SPush v late]: push( v) has been called (after close() if [late]) and has had no effect; [SPushed v]: it has appended v; [SPop]: value_pop() has had no effect; [SPopped v]: it has removed v. *)
Inductive phase := SIdle | SPush (v : nat) (late : bool) | SPushed (v : nat) | SPop | SPopped (v : nat).
Record aut := mkAut { queue : list nat; phs : nat -> phase; shut : bool }.
Definition aut0 : aut := mkAut [] (fun _ => SIdle) false.
(** [None]: the event is not allowed. An operation has its effect once, between its call and its return; values leave in the order in which they have come in; there are never more than [cap] values; a push() that is called after close() has no effect. *)
Definition astep (cap : nat) (a : aut) (e : event) : option aut :=
  match e with
  | ECallPush t v => match phs a t with SIdle => Some (mkAut (queue a) (upd (phs a) t (SPush v (shut a))) (shut a)) | _ => None end
  | EEnq t v => match phs a t with SPush w false => if Nat.eqb v w && Nat.ltb (length (queue a)) cap then Some (mkAut (queue a ++ [v]) (upd (phs a) t (SPushed v)) (shut a)) else None | _ => None end
  | EOk t v => match phs a t with SPushed w => if Nat.eqb v w then Some (mkAut (queue a) (upd (phs a) t SIdle) (shut a)) else None | _ => None end
  | ERefused t v => match phs a t with SPush w _ => if Nat.eqb v w && shut a then Some (mkAut (queue a) (upd (phs a) t SIdle) (shut a)) else None | _ => None end
  | ECallPop t => match phs a t with SIdle => Some (mkAut (queue a) (upd (phs a) t SPop) (shut a)) | _ => None end
  | EDeq t => match phs a t, queue a with SPop, v :: r => Some (mkAut r (upd (phs a) t (SPopped v)) (shut a)) | _, _ => None end
  | ERet t v => match phs a t with SPopped w => if Nat.eqb v w then Some (mkAut (queue a) (upd (phs a) t SIdle) (shut a)) else None | _ => None end
  | EThrow t => match phs a t with SPop => if shut a then Some (mkAut (queue a) (upd (phs a) t SIdle) (shut a)) else None | _ => None end
  | EUb t => None
  | EClose t => Some (mkAut (queue a) (phs a) true)
  end.
(** The automaton after all events (newest first). *)
Fixpoint accept (cap : nat) (l : list event) : option aut := match l with [] => Some aut0 | e :: r => match accept cap r with Some a => astep cap a e | None => None end end.

(** No thread inside push() or value_pop() can take a step. *)
Definition stuck (cap : nat) (s : st) : Prop := forall t, run cap s t = None /\ step cap s (Spur t) = None /\ forall u, step cap s (Note t u) = None.
(** Executions in which only thread c takes values out of the channel. *)
Definition one_consumer (cap c : nat) (s : st) (l : label) : option st := match l with Pop t => if Nat.eqb t c then step cap s l else None | _ => step cap s l end.
(** A thread that is inside an operation and waits in one of the condition variables. *)
Definition asleep (s : st) (t : nat) : Prop := (exists v, pc s t = PSleep v) \/ pc s t = CSleep.
