(** Model: the clients examples/asio/ps/publisher.cpp and examples/asio/ps/subscriber.cpp of the publish/subscribe server. Bytes are numbers, a buffer is the list of its bytes, the standard input is the list of the bytes not yet read. *)
From Coq Require Import List Arith NArith Bool.
From Verif Require Import Base PubText.
Import ListNotations.

(** memset() and memcpy() of the name of the queue (publisher.cpp:35-38, subscriber.cpp:35-38); [len] is the length of msg. [None]: memcpy() writes behind the buffer, because queue.size() is not compared with max_length. *)
Definition name_block (len : nat) (name : list N) : option (list N) :=
  if length name <=? len then Some (name ++ skipn (length name) (repeat 0%N len)) else None.

(** Why std::istream::getline() stopped (publisher.cpp:43): a newline was extracted, the input ended (eofbit), no room was left (failbit). *)
Inductive why := Newline | Ended | Full.
(** The characters std::istream::getline() extracts when [k] more fit (publisher.cpp:43; C++ standard, [istream.unformatted]): the end of the input is tested first, then the newline, then the room. The bytes stored, the rest of the input, the reason. *)
Fixpoint take_line (k : nat) (inp : list N) {struct inp} : list N * list N * why :=
  match inp with
  | [] => ([], [], Ended)
  | c :: r => if N.eqb c 10 then ([], r, Newline) else
              match k with 0 => ([], inp, Full) | S k' => let '(l, r', w) := take_line k' r in (c :: l, r', w) end
  end.
(** std::cin: good() and the bytes not yet read. *)
Record stream := Stream { good : bool; rest : list N }.
(** std::cin.getline( request, max_length) (publisher.cpp:43) on a buffer with the bytes [b]. A stream that is not good() extracts nothing and stores a terminating zero; nobody calls clear(). *)
Definition getline (s : stream) (b : list N) : stream * list N :=
  if good s then
    let '(l, r, w) := take_line (length b - 1) (rest s) in
    (Stream (match w with Newline => true | _ => false end) r, l ++ 0%N :: skipn (S (length l)) b)
  else (s, 0%N :: skipn 1 b).
(** [k] rounds of the loop of the publisher (publisher.cpp:40-45): the blocks written. [g i]: the bytes that the uninitialised array request has in round [i] (publisher.cpp:42). The writes succeed. *)
Fixpoint rounds (g : nat -> list N) (k i : nat) (s : stream) : list (list N) :=
  match k with 0 => [] | S k' => let '(s', b) := getline s (g i) in b :: rounds g k' (S i) s' end.
(** The loop of the publisher with the standard input [inp] (publisher.cpp:40-45). *)
Definition publisher (g : nat -> list N) (k : nat) (inp : list N) : list (list N) := rounds g k 0 (Stream true inp).

(** One round of the loop of the subscriber (subscriber.cpp:41-45): read_some() returns between one and [len] of the bytes that have arrived; how many is up to the network ([n]). The bytes written to std::cout between "published: " and the newline, the bytes left; [None]: read_some() does not return like this. *)
Definition read_some (len n : nat) (arrived : list N) : option (list N * list N) :=
  if (1 <=? n) && (n <=? len) && (n <=? length arrived) then Some (firstn n arrived, skipn n arrived) else None.
(** The lines the subscriber writes when its reads return [ns] bytes (subscriber.cpp:40-46), and the bytes it has not read. *)
Fixpoint subscriber (len : nat) (ns : list nat) (arrived : list N) : option (list (list N) * list N) :=
  match ns with
  | [] => Some ([], arrived)
  | n :: r => match read_some len n arrived with
              | None => None
              | Some (out, a) => match subscriber len r a with None => None | Some (o, a') => Some (out :: o, a') end
              end
  end.
