(** Specification vocabulary for the scheduler: what the record of events says about fiber objects and the ready queue of a thread, and where a
    context is. The record is newest first. *)
From Coq Require Import List Arith Bool.
From Verif Require Import Base Sched.
Import ListNotations.

Definition worker (c : ctx) : Prop := exists n, c = Wk n.

(** The fiber that fiber object [h] refers to. *)
Fixpoint holds (h : nat) (l : list event) : option ctx :=
  match l with
  | [] => None
  | ELaunch _ _ h' c :: l' => if Nat.eqb h h' then Some c else holds h l'
  | EJoinRet _ h' _ JOk :: l' | EDetach _ h' _ JOk :: l' => if Nat.eqb h h' then None else holds h l'
  | EMove h1 h2 :: l' => if Nat.eqb h h1 then None else if Nat.eqb h h2 then holds h1 l' else holds h l'
  | _ :: l' => holds h l'
  end.

(** A first-in first-out queue that starts with the dispatcher, gets what is awakened and loses what is picked. *)
Fixpoint fifo (t : tid) (l : list event) : list ctx :=
  match l with
  | [] => [Dp t]
  | EAwake u c :: l' => if Nat.eqb t u then fifo t l' ++ [c] else fifo t l'
  | EPick u c :: l' => if Nat.eqb t u then tl (fifo t l') else fifo t l'
  | _ :: l' => fifo t l'
  end.

(** How often thread [t] has picked a context. *)
Fixpoint picks (t : tid) (l : list event) : nat :=
  match l with
  | [] => 0
  | EPick u _ :: l' => if Nat.eqb t u then S (picks t l') else picks t l'
  | _ :: l' => picks t l'
  end.

(** The call that context [c] is in: join, a sleep or a timed wait. *)
Inductive call := CJoin (h : nat) | CSleep (tp : nat) | CWait (tp : nat).
Fixpoint pending (c : ctx) (l : list event) : option call :=
  match l with
  | [] => None
  | EJoin a h :: l' => if ctx_eqb c a then Some (CJoin h) else pending c l'
  | ESleep a tp :: l' => if ctx_eqb c a then Some (CSleep tp) else pending c l'
  | EWait a tp :: l' => if ctx_eqb c a then Some (CWait tp) else pending c l'
  | EJoinRet a _ _ _ :: l' | ESleepRet a _ _ :: l' | EWaitRet a _ _ _ :: l' => if ctx_eqb c a then None else pending c l'
  | _ :: l' => pending c l'
  end.

(** Every event, seen with the events before it. *)
Fixpoint hist (P : event -> list event -> Prop) (l : list event) : Prop :=
  match l with [] => True | e :: l' => P e l' /\ hist P l' end.

Lemma hist_split P l1 e l2 : hist P (l1 ++ e :: l2) -> P e l2.
Proof. induction l1 as [|x l1 IH]; simpl; tauto. Qed.

(** Where a context is. *)
Definition running (s : state) (t : tid) (c : ctx) : Prop := act (th s t) = c.
Definition ready (s : state) (t : tid) (c : ctx) : Prop := In c (rq (th s t)).
Definition remote (s : state) (t : tid) (c : ctx) : Prop := In c (rrq (th s t)) \/ In c (tmp (th s t)).
(** Some thread has decided to wake it and is about to put it into the remote-ready queue. *)
Definition being_pushed (s : state) (c : ctx) : Prop := exists a k, pcc (cx s a) = PPush c k.
(** Suspended and not yet woken. *)
Definition waiting (s : state) (c : ctx) : Prop := exists e w, pcc (cx s c) = PSusp e w /\ ep (cx s c) = e.
(** Suspended with a deadline and not yet woken. *)
Definition sleeping (s : state) (c : ctx) (tp : nat) : Prop :=
  exists e w, pcc (cx s c) = PSusp e w /\ ep (cx s c) = e /\ (w = WTimed tp \/ w = WSleep tp).
(** In fiber::join on [c] through fiber object [h], not yet woken. *)
Definition joining (s : state) (g c : ctx) : Prop := exists e h, pcc (cx s g) = PSusp e (WJoin h c) /\ ep (cx s g) = e.
Definition launched (s : state) (c : ctx) : Prop := exists a p h, In (ELaunch a p h c) (log s).
Definition terminated (s : state) (c : ctx) : Prop := In (ELeft c) (log s).
