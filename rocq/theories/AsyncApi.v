(** Model: the adapters of a callback interface, examples/adapt_callbacks.cpp and examples/adapt_method_calls.cpp. Fibers of one thread use one AsyncAPI; each operation is completed by a thread of its own, at any time. Strings and error codes are numbers. *)
From Coq Require Import List Arith NArith Bool.
From Verif Require Import Base.
Import ListNotations.

(** The adapters: write_ec() (adapt_callbacks.cpp:148-177), write() (181-186), read_ec() (190-211), read() (215-247; adapt_method_calls.cpp:122-131). *)
Inductive op := WriteEc (d : N) | Write (d : N) | ReadEc | Read.
(** What an adapter returns: an error code, nothing, a pair, a string, the exception made by make_exception() (adapt_callbacks.cpp:253-257; adapt_method_calls.cpp:137-141), which contains the error code and the name of the operation. *)
Inductive result := REc (e : N) | RUnit | RPair (e d : N) | RData (d : N) | RExcWrite (e : N) | RExcRead (e : N).
(** The promise of an operation: a fiber that does not execute an adapter; the thread of the operation sleeps, with what it has captured (adapt_callbacks.cpp:107-110, 130-133; adapt_method_calls.cpp:79-88); the promise has its value or its exception. *)
Inductive prom := PNone | PSleep (o : op) (e d : N) | PSet (o : op) (r : result).
Inductive event := EInject (e : N) | EBegin (f : nat) (o : op) | ERet (f : nat) (o : op) (r : result).
(** data_ and injected_ (adapt_callbacks.cpp:75-76; adapt_method_calls.cpp:53-54), the promises, the log. *)
Record st := mkSt { dat : N; inj : N; proms : nat -> prom; log : list event }.
(** The constructor (adapt_callbacks.cpp:85-87; adapt_method_calls.cpp:61-64), [d0]: the first contents of data_. *)
Definition init (d0 : N) : st := mkSt d0 0 (fun _ => PNone) [].
(** What the callback stores in the promise: adapt_callbacks.cpp:161-163, 197-199, 221-229, for write() by way of write_ec(); adapt_method_calls.cpp:81-87, 101-110. For write() the value is the error code. *)
Definition callback (o : op) (e d : N) : result :=
  match o with
  | WriteEc _ | Write _ => REc e
  | ReadEc => RPair e d
  | Read => if N.eqb e 0 then RData d else RExcRead e
  end.
(** What the adapter does with the result of future.get(): write() throws if there is an error code (adapt_callbacks.cpp:182-185), the others return it or let the exception pass (176, 210, 246; adapt_method_calls.cpp:130). *)
Definition finish (o : op) (r : result) : result :=
  match o, r with Write _, REc e => if N.eqb e 0 then RUnit else RExcWrite e | _, _ => r end.
Inductive label := LInject (e : N) | LBegin (f : nat) (o : op) | LFire (f : nat) | LGet (f : nat).
(** One step: inject_error() (adapt_callbacks.cpp:89-91; adapt_method_calls.cpp:66-68); init_write() and init_read() up to the start of the thread (adapt_callbacks.cpp:96-102, 121-125; adapt_method_calls.cpp:72-76), which no other fiber interrupts; the callback in the thread; future.get() returns. *)
Definition step (s : st) (l : label) : option st :=
  match l with
  | LInject e => Some (mkSt (dat s) e (proms s) (EInject e :: log s))
  | LBegin f o => match proms s f with
      | PNone =>
          let d' := match o with WriteEc d | Write d => if N.eqb (inj s) 0 then d else dat s | _ => dat s end in
          Some (mkSt d' 0 (upd (proms s) f (PSleep o (inj s) (dat s))) (EBegin f o :: log s))
      | _ => None end
  | LFire f => match proms s f with PSleep o e d => Some (mkSt (dat s) (inj s) (upd (proms s) f (PSet o (callback o e d))) (log s)) | _ => None end
  | LGet f => match proms s f with PSet o r => Some (mkSt (dat s) (inj s) (upd (proms s) f PNone) (ERet f o (finish o r) :: log s)) | _ => None end
  end.
