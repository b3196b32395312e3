(** Model: the publish/subscribe server examples/asio/ps/server.cpp: registry, subscriptions, subscriber_session and publisher_session. All fibers run on the thread of the io_context, so a fiber keeps the processor until it suspends: in an asynchronous operation or in cond_.wait(). No fiber suspends while it holds one of the mutexes (cond_.wait() releases mtx_), so every lock() succeeds at once and the code between two suspensions is one step.
    Simplified: the name of a queue is a number, 0 stands for the empty name; a message is [Fini] (the text "<fini>") or [Txt v]; texts that do not fit or are not terminated are in PubText. The output to std::cout and std::cerr is left out. *)
From Coq Require Import List Arith Bool.
From Verif Require Import Base.
Import ListNotations.

(** server.cpp:175. *)
Inductive msg := Fini | Txt (v : nat).
(** Newest first. [s] subscriber, [p] publisher, [q] queue. *)
Inductive event :=
  | EReg (p q : nat)           (* p has registered the queue q *)
  | ERegFail (p q : nat)       (* register_queue() throws: the queue exists *)
  | EUnreg (p q : nat)         (* p has called unregister_queue(); its session ends *)
  | EPub (p q : nat) (m : msg) (* the message of p is published on the queue q *)
  | EPubFail (p q : nat)       (* publish() throws: the queue does not exist *)
  | ESub (s q : nat)           (* s has subscribed to the queue q *)
  | ESubFail (s q : nat)       (* subscribe() throws: the queue does not exist *)
  | EUnsub (s q : nat)         (* s has called unsubscribe(); its session ends *)
  | ELost (s : nat)            (* the write to the client of s has failed *)
  | EWrite (s : nat) (m : msg)    (* the message is written to the client of s *)
.
(** Fiber of a subscriber_session. [SNew]: in the first async_read(). [SWait]: in cond_.wait(). [SReady]: notified. [SWrite m]: in async_write(). [SEnd]: ended. *)
Inductive sub := SNew | SWait | SReady | SWrite (m : msg) | SEnd.
(** Fiber of a publisher_session. [PNew]: in the first async_read(). [PRun]: in async_read() of a message. [PEnd]: ended. *)
Inductive pub := PNew | PRun | PEnd.
(** [queues]: queues_ (server.cpp:59) with the set of subscribers of each queue (49); [buf]: data_ (216). [sq], [pq]: the local variable queue of run() (145, 248). *)
Record st := mkSt { queues : nat -> option (list nat); subs : nat -> sub; sq : nat -> nat; buf : nat -> msg; pubs : nat -> pub; pq : nat -> nat; log : list event }.
(** main(): no client has connected (server.cpp:359-374). *)
Definition init_state : st := mkSt (fun _ => None) (fun _ => SNew) (fun _ => 0) (fun _ => Txt 0) (fun _ => PNew) (fun _ => 0) [].
(** [POpen p q]: the publisher sends the name of its queue. [PFail p]: its first async_read() fails. [PMsg p m]: it sends a message. [PClose p]: async_read() reports eof or another error. [SOpen s q], [SFail s]: likewise for a subscriber. [SGo s]: the notified fiber goes on. [SDone s ok]: async_write() has ended. *)
Inductive label := POpen (p q : nat) | PFail (p : nat) | PMsg (p : nat) (m : msg) | PClose (p : nat) | SOpen (s q : nat) | SFail (s : nat) | SGo (s : nat) | SDone (s : nat) (ok : bool).

(** subscriber_session::publish() (server.cpp:203-208): the message is stored, a waiting fiber is woken. *)
Definition deliver1 (m : msg) (a : (nat -> msg) * (nat -> sub)) (s : nat) : (nat -> msg) * (nat -> sub) :=
  (upd (fst a) s m, match snd a s with SWait => upd (snd a) s SReady | _ => snd a end).
(** subscriptions::publish() and ~subscriptions() (server.cpp:220-231). *)
Definition deliver (st0 : st) (l : list nat) (m : msg) : (nat -> msg) * (nat -> sub) := fold_left (deliver1 m) l (buf st0, subs st0).
(** The end of publisher_session::run(): unregister_queue(), which destroys the subscriptions (server.cpp:289-292, 69-72). *)
Definition punreg (s : st) (p q : nat) (es : list event) : st :=
  let l := match queues s q with Some l => l | None => [] end in
  let (b, m) := deliver s l Fini in
  mkSt (upd (queues s) q None) m (sq s) b (upd (pubs s) p PEnd) (upd (pq s) p q) (EUnreg p q :: es ++ log s).
(** The end of subscriber_session::run(): unsubscribe() (server.cpp:196-199, 83-88). *)
Definition sunsub (t : st) (s q : nat) (es : list event) : st :=
  mkSt (match queues t q with Some l => upd (queues t) q (Some (remove Nat.eq_dec s l)) | None => queues t end)
    (upd (subs t) s SEnd) (upd (sq t) s q) (buf t) (pubs t) (pq t) (EUnsub s q :: es ++ log t).

(** One step. *)
Definition step (t : st) (l : label) : option st :=
  match l with
  (* server.cpp:265-268, 61-67, 286-292 *)
  | POpen p q => match pubs t p with
      | PNew => Some (match queues t q with
          | None => mkSt (upd (queues t) q (Some [])) (subs t) (sq t) (buf t) (upd (pubs t) p PRun) (upd (pq t) p q) (EReg p q :: log t)
          | Some _ => punreg t p q [ERegFail p q] end)
      | _ => None end
  (* server.cpp:261-263, 286-292: queue is empty *)
  | PFail p => match pubs t p with PNew => Some (punreg t p 0 []) | _ => None end
  (* server.cpp:270-285, 90-97 *)
  | PMsg p m => match pubs t p with
      | PRun => Some (match queues t (pq t p) with
          | Some l => let (b, n) := deliver t l m in mkSt (queues t) n (sq t) b (pubs t) (pq t) (EPub p (pq t p) m :: log t)
          | None => punreg t p (pq t p) [EPubFail p (pq t p)] end)
      | _ => None end
  (* server.cpp:277-281, 289-292 *)
  | PClose p => match pubs t p with PRun => Some (punreg t p (pq t p) []) | _ => None end
  (* server.cpp:161-171, 74-81: after subscribe() the fiber goes on to cond_.wait() *)
  | SOpen s q => match subs t s with
      | SNew => Some (match queues t q with
          | Some l => mkSt (upd (queues t) q (Some (s :: l))) (upd (subs t) s SWait) (upd (sq t) s q) (buf t) (pubs t) (pq t) (ESub s q :: log t)
          | None => sunsub t s q [ESubFail s q] end)
      | _ => None end
  (* server.cpp:156-158, 193-199 *)
  | SFail s => match subs t s with SNew => Some (sunsub t s 0 []) | _ => None end
  (* server.cpp:171-185 *)
  | SGo s => match subs t s with
      | SReady => Some (match buf t s with
          | Fini => sunsub t s (sq t s) []
          | m => mkSt (queues t) (upd (subs t) s (SWrite m)) (sq t) (buf t) (pubs t) (pq t) (log t) end)
      | _ => None end
  (* server.cpp:182-199, 170-171: the fiber goes on to cond_.wait() *)
  | SDone s ok => match subs t s with
      | SWrite m => Some (if ok then mkSt (queues t) (upd (subs t) s SWait) (sq t) (buf t) (pubs t) (pq t) (EWrite s m :: log t)
          else sunsub t s (sq t s) [ELost s])
      | _ => None end
  end.
