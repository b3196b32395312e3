(** Model: the echo server with its clients, examples/asio/autoecho.cpp:122-260, as a whole program: main, the server fiber, one session fiber for each connection, and the client fibers with their barrier.
    Asynchronous operations (yield, C99) are one step: the operation completes and its fiber goes on. Connections are byte streams in both directions; async_read_some() returns any positive number of bytes that have arrived (at most max_length), async_write() writes all. After io_context::stop() no asynchronous operation completes.
    Simplified: resolve() and connect() of a client succeed as long as the acceptor is open; the names, the output and the scheduling order are not modelled; main's barrier and acceptor are not destroyed (the ready queue is FIFO, so the clients leave the barrier before the server fiber stops the io_context). *)
From Coq Require Import List Arith Bool.
From Verif Require Import Base.
Import ListNotations.

(** A client: before iteration k (autoecho.cpp:184); before async_write() (195-204), before async_read_some() (205-213) of iteration k on connection c; in barrier.wait() (218); released from it with its result; ended; ended by the return of line 210 (line 201 for a write: a write does not report eof). *)
Inductive cph := CConn (k : nat) | CWrite (k c : nat) | CRead (k c : nat) | CWait | CRel (b : bool) | CDone | CGone.
(** A session (autoecho.cpp:123-151): not accepted yet; in async_read_some(); in async_write(); ended. *)
Inductive sph := SPend | SRead | SWrite | SEnd.
(** A connection: client and iteration (None: from elsewhere), bytes on the way to the server, data[] of the session, bytes on the way to the client, the client's end is closed, the session. *)
Record conn := mkConn { own : option (nat * nat); up : list nat; held : list nat; down : list nat; shut : bool; sst : sph }.
(** The server fiber (autoecho.cpp:156-176): in async_accept(); before io_ctx->stop(); ended. *)
Inductive vph := VAcc | VStop | VDone.
(** Newest first. [EReply i k r]: client i has received r in iteration k; [EClose]: a.close(); [EFail c]: the session of connection c has got an error; [ETerm i]: an exception leaves the fiber function of client i. *)
Inductive event := EReply (i k : nat) (r : list nat) | EClose | EFail (c : nat) | ETerm (i : nat).
(** [arrived]: fibers that have called wait() of the barrier; [closed]: the acceptor; [mret]: run() has returned in main; [ended]: the program has ended; [term]: std::terminate(). *)
Record st := mkSt { cl : list cph; cs : list conn; arrived : nat; closed : bool; srv : vph; mret : bool; ended : bool; term : bool; log : list event }.
(** Steps of client i, of the session of connection c, of the server, and of main; the n of Reply and SRd is the number of bytes that read_some() returns. [ExtConn], [ExtSend], [ExtClose]: some other program connects to port 9999, sends, closes. *)
Inductive label := Connect (i : nat) | Write (i : nat) | Reply (i n : nat) | CEof (i : nat) | CErr (i : nat) | Arrive (i : nat) | Leave (i : nat) | Accept (c : nat) | SRd (c n : nat) | SWr (c : nat) | SEof (c : nat) | SErr (c : nat) | Abort | Stop | MainRet | Finish | ExtConn | ExtSend (c b : nat) | ExtClose (c : nat).

(** max_length (autoecho.cpp:27). *)
Definition max_length : nat := 1024.
(** autoecho.cpp:230-250: all clients have been launched. *)
Definition init_state (nc : nat) : st := mkSt (repeat (CConn 0) nc) [] 0 false VAcc false false false [].

(** Model only: assignments to an element of a list and to the fields of the state. *)
Fixpoint put {A} (l : list A) (i : nat) (v : A) : list A := match l, i with
  | [], _ => [] | _ :: r, 0 => v :: r | x :: r, S j => x :: put r j v end.
Definition set_cl s x := mkSt x (cs s) (arrived s) (closed s) (srv s) (mret s) (ended s) (term s) (log s).
Definition set_cs s x := mkSt (cl s) x (arrived s) (closed s) (srv s) (mret s) (ended s) (term s) (log s).
Definition set_srv s x := mkSt (cl s) (cs s) (arrived s) (closed s) x (mret s) (ended s) (term s) (log s).
Definition add s e := mkSt (cl s) (cs s) (arrived s) (closed s) (srv s) (mret s) (ended s) (term s) (e :: log s).
(** barrier.wait(): the last one returns true and releases the others (src/barrier.cpp:30-45, C14-C16). *)
Definition released (p : cph) : cph := match p with CWait => CRel false | _ => p end.
Definition arrive (s : st) (i : nat) : st :=
  if S (arrived s) =? length (cl s) then mkSt (put (map released (cl s)) i (CRel true)) (cs s) (S (arrived s)) (closed s) (srv s) (mret s) (ended s) (term s) (log s)
  else mkSt (put (cl s) i CWait) (cs s) (S (arrived s)) (closed s) (srv s) (mret s) (ended s) (term s) (log s).
(** a.close(): connections that have not been accepted are reset. *)
Definition reset (q : conn) : conn := match sst q with SPend => mkConn (own q) [] [] (down q) (shut q) SEnd | _ => q end.
Definition close (s : st) : st := mkSt (cl s) (map reset (cs s)) (arrived s) true (srv s) (mret s) (ended s) (term s) (EClose :: log s).
(** The number of bytes that read_some() may return when l has arrived. *)
Definition can_read (n : nat) (l : list nat) : bool := (1 <=? n) && (n <=? length l) && (n <=? max_length).
(** Asynchronous operations complete until the io_context has been stopped. *)
Definition live (s : st) : bool := match srv s with VDone => false | _ => true end.
(** For the test at the end of main: the session or the client fiber has ended. *)
Definition is_end (q : conn) : bool := match sst q with SEnd => true | _ => false end.
Definition is_over (p : cph) : bool := match p with CDone | CGone => true | _ => false end.

Section Echo.
(** iterations (autoecho.cpp:242) and the message of a client in an iteration (191-193). *)
Variable it : nat.
Variable msg : nat -> nat -> list nat.

(** Connect, Write, Reply, CEof, CErr, Arrive, Leave: autoecho.cpp:181-225; Accept, Abort: 158-173; Stop: 174; SRd, SWr, SEof, SErr: 124-151; MainRet: 251; Finish: the end of main, where the scheduler waits for the fibers (C44). *)
Definition step (s : st) (l : label) : option st :=
  if term s || ended s then None else
  match l with
  | Connect i => match nth_error (cl s) i with
      | Some (CConn k) => if (k <? it) && negb (closed s) then Some (set_cs (set_cl s (put (cl s) i (CWrite k (length (cs s))))) (cs s ++ [mkConn (Some (i, k)) [] [] [] false SPend])) else None
      | _ => None end
  | Write i => match nth_error (cl s) i with
      | Some (CWrite k c) => match nth_error (cs s) c with
          | Some q => if live s then Some (set_cs (set_cl s (put (cl s) i (CRead k c))) (put (cs s) c (if is_end q then q else mkConn (own q) (up q ++ msg i k) (held q) (down q) (shut q) (sst q)))) else None
          | None => None end
      | _ => None end
  | Reply i n => match nth_error (cl s) i with
      | Some (CRead k c) => match nth_error (cs s) c with
          | Some q => if live s && can_read n (down q) then
              Some (add (set_cs (set_cl s (put (cl s) i (CConn (S k)))) (put (cs s) c (mkConn (own q) (up q) (held q) (skipn n (down q)) true (sst q)))) (EReply i k (firstn n (down q)))) else None
          | None => None end
      | _ => None end
  | CEof i => match nth_error (cl s) i with
      | Some (CRead k c) => match nth_error (cs s) c with
          | Some q => if live s && is_end q && (length (down q) =? 0) then Some (set_cl s (put (cl s) i CGone)) else None
          | None => None end
      | _ => None end
  | CErr i => match nth_error (cl s) i with
      | Some (CWrite k c) | Some (CRead k c) => if live s then Some (mkSt (cl s) (cs s) (arrived s) (closed s) (srv s) (mret s) (ended s) true (ETerm i :: log s)) else None
      | _ => None end
  | Arrive i => match nth_error (cl s) i with
      | Some (CConn k) => if k =? it then Some (arrive s i) else None
      | _ => None end
  | Leave i => match nth_error (cl s) i with
      | Some (CRel b) => let s1 := set_cl s (put (cl s) i CDone) in Some (if b then close s1 else s1)
      | _ => None end
  | Accept c => match nth_error (cs s) c, srv s with
      | Some q, VAcc => match sst q with SPend => if closed s then None else Some (set_cs s (put (cs s) c (mkConn (own q) (up q) (held q) (down q) (shut q) SRead))) | _ => None end
      | _, _ => None end
  | SRd c n => match nth_error (cs s) c with
      | Some q => match sst q with SRead => if live s && can_read n (up q) then Some (set_cs s (put (cs s) c (mkConn (own q) (skipn n (up q)) (firstn n (up q)) (down q) (shut q) SWrite))) else None | _ => None end
      | None => None end
  | SWr c => match nth_error (cs s) c with
      | Some q => match sst q with SWrite => if live s then Some (set_cs s (put (cs s) c (mkConn (own q) (up q) [] (down q ++ held q) (shut q) SRead))) else None | _ => None end
      | None => None end
  | SEof c => match nth_error (cs s) c with
      | Some q => match sst q with SRead => if live s && shut q && (length (up q) =? 0) then Some (set_cs s (put (cs s) c (mkConn (own q) [] [] (down q) (shut q) SEnd))) else None | _ => None end
      | None => None end
  | SErr c => match nth_error (cs s) c with
      | Some q => match sst q with SRead | SWrite => if live s then Some (add (set_cs s (put (cs s) c (mkConn (own q) [] [] (down q) (shut q) SEnd))) (EFail c)) else None | _ => None end
      | None => None end
  | Abort => match srv s with VAcc => if closed s then Some (set_srv s VStop) else None | _ => None end
  | Stop => match srv s with VStop => Some (set_srv s VDone) | _ => None end
  | MainRet => match srv s, mret s with VDone, false => Some (mkSt (cl s) (cs s) (arrived s) (closed s) (srv s) true (ended s) (term s) (log s)) | _, _ => None end
  | Finish => if mret s && forallb is_over (cl s) && forallb is_end (cs s) then Some (mkSt (cl s) (cs s) (arrived s) (closed s) (srv s) (mret s) true (term s) (log s)) else None
  | ExtConn => if closed s then None else Some (set_cs s (cs s ++ [mkConn None [] [] [] false SPend]))
  | ExtSend c b => match nth_error (cs s) c with
      | Some q => match own q, shut q with None, false => Some (set_cs s (put (cs s) c (if is_end q then q else mkConn (own q) (up q ++ [b]) (held q) (down q) (shut q) (sst q)))) | _, _ => None end
      | None => None end
  | ExtClose c => match nth_error (cs s) c with
      | Some q => match own q with None => Some (set_cs s (put (cs s) c (mkConn (own q) (up q) (held q) (down q) true (sst q)))) | _ => None end
      | None => None end
  end.
End Echo.
