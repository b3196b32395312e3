(** Model: examples/adapt_nonblocking.cpp, the adaption of a nonblocking operation to fibers (doc/nonblocking.qbk): NonblockingAPI, read_chunk(), read_desired() and read(). One fiber calls read(); while it has yielded, other fibers may call inject_error(). Bytes are numbers. *)
From Coq Require Import List Arith NArith ZArith Bool.
From Verif Require Import Base.
Import ListNotations.

(** errno.h, cstdio. *)
Definition EWOULDBLOCK : Z := 11.
Definition EOF : Z := (-1).
(** adapt_nonblocking.cpp:34-37. *)
Record api := mkApi { data : list N; injected : Z; tries : nat; chunk : nat }.
(** What NonblockingAPI::read() does: it returns an error code and sets the string, or std::string::substr() throws std::out_of_range. *)
Inductive result := Code (a : api) (ec : Z) (d : list N) | Throws.
(** NonblockingAPI::read() (adapt_nonblocking.cpp:65-97); std::string::substr( size) throws if size is larger than the length. *)
Definition api_read (a : api) (desired : nat) : result :=
  if negb (Z.eqb (injected a) 0) then Code (mkApi (data a) 0 0 (chunk a)) (injected a) []
  else if S (tries a) <? 5 then Code (mkApi (data a) (injected a) (S (tries a)) (chunk a)) EWOULDBLOCK []
  else match data a with
    | [] => Code (mkApi (data a) (injected a) (S (tries a)) (chunk a)) EOF []
    | _ => let size := Nat.min desired (chunk a) in
        if size <=? length (data a) then Code (mkApi (skipn size (data a)) (injected a) 0 (chunk a)) 0 (firstn size (data a)) else Throws
    end.
(** How a call of read() has ended: it returns, it throws IncompleteRead (adapt_nonblocking.cpp:168), std::out_of_range leaves it. *)
Inductive outcome := ORet (d : list N) | OIncomplete (d : list N) (ec : Z) | OOutOfRange.
(** [acc]: the variable data of read() (adapt_nonblocking.cpp:156); [yielded]: the fiber is in yield() (108). [hist]: the errors injected since the call (model only). *)
Record st := mkSt { dev : api; acc : list N; yielded : bool; over : option outcome; hist : list Z }.
(** set_data() (adapt_nonblocking.cpp:52-59), then read(). *)
Definition init_state (d : list N) (c : nat) : st := mkSt (mkApi d 0 0 c) [] false None [].
(** [Go]: the fiber goes on up to the next call of NonblockingAPI::read() and its evaluation. [Inject e]: another fiber calls inject_error( e). *)
Inductive label := Go | Inject (e : Z).
(** The end of read_desired() and read() with the error code (adapt_nonblocking.cpp:125, 157-168). *)
Definition finish (d : list N) (ec : Z) : outcome := if Z.eqb ec 0 || Z.eqb ec EOF then ORet d else OIncomplete d ec.
(** One step; [desired] is the argument of read(). *)
Definition step (desired : nat) (s : st) (l : label) : option st :=
  match over s, l with
  | Some _, _ => None
  (* adapt_nonblocking.cpp:61-63 *)
  | None, Inject e => if yielded s then Some (mkSt (mkApi (data (dev s)) e (tries (dev s)) (chunk (dev s))) (acc s) true None (e :: hist s)) else None
  (* adapt_nonblocking.cpp:103-126 *)
  | None, Go =>
      if length (acc s) <? desired then
        match api_read (dev s) (desired - length (acc s)) with
        | Throws => Some (mkSt (dev s) (acc s) false (Some OOutOfRange) (hist s))
        | Code a ec d =>
            if Z.eqb ec EWOULDBLOCK then Some (mkSt a (acc s) true None (hist s))
            else if Z.eqb ec 0 then Some (mkSt a (acc s ++ d) false None (hist s))
            else Some (mkSt a (acc s) false (Some (finish (acc s) ec)) (hist s))
        end
      else Some (mkSt (dev s) (acc s) false (Some (finish (acc s) 0)) (hist s))
  end.
