(** Specification for C141: the echo example. *)
From Coq Require Import List Arith.
From Verif Require Import Base Autoecho.
Import ListNotations.

(** Steps of other programs. *)
Definition outside (l : label) : Prop := match l with ExtConn | ExtSend _ _ | ExtClose _ => True | _ => False end.
(** The program can do nothing. *)
Definition stuck (it : nat) (msg : nat -> nat -> list nat) (s : st) : Prop := forall l, ~ outside l -> step it msg s l = None.
(** Nothing can happen any more although the program has neither ended nor called std::terminate(). *)
Definition hangs (it : nat) (msg : nat -> nat -> list nat) (s : st) : Prop := stuck it msg s /\ ended s = false /\ term s = false.
(** Every reply is the message, or at least a part of it from its beginning. *)
Definition echoed (msg : nat -> nat -> list nat) (l : list event) : Prop := forall i k r, In (EReply i k r) l -> r = msg i k.
Definition echoed_part (msg : nat -> nat -> list nat) (l : list event) : Prop := forall i k r, In (EReply i k r) l -> r <> [] /\ exists rest, r ++ rest = msg i k.
(** The acceptor is closed at most once, and only when every client has got a reply in every iteration. *)
Definition closed_last (nc it : nat) (l : list event) : Prop := forall l1 l2, l = l1 ++ EClose :: l2 ->
  ~ In EClose l1 /\ ~ In EClose l2 /\ forall i k, i < nc -> k < it -> exists r, In (EReply i k r) l2.
(** A client has ended because its connection was closed. *)
Definition client_lost (s : st) : Prop := In CGone (cl s).
(** The io_context has been stopped while a session waits for its connection. *)
Definition session_left (s : st) : Prop := srv s = VDone /\ exists q, In q (cs s) /\ (sst q = SRead \/ sst q = SWrite).
