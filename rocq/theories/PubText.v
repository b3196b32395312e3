(** Model: the way of a message through the buffers of the publish/subscribe server examples/asio/ps/server.cpp. A buffer is the list of its bytes. *)
From Coq Require Import List Arith NArith Bool.
From Verif Require Import Base.
Import ListNotations.

(** server.cpp:23. *)
Definition max_length : nat := 1024.
(** Construction of a std::string from a char array (server.cpp:161, 172, 266, 284): the bytes before the first zero; [None]: there is none, the bytes behind the array are read. *)
Fixpoint text (b : list N) : option (list N) :=
  match b with [] => None | c :: r => if N.eqb c 0 then Some [] else option_map (cons c) (text r) end.
(** subscriber_session::publish() (server.cpp:205-206): memset(), memcpy(); [len] is the length of data_. *)
Definition store (len : nat) (m : list N) : list N :=
  let k := Nat.min len (length m) in firstn k m ++ repeat 0%N (len - k).
(** From the block of bytes read from the publisher (server.cpp:273-276) to the text written to the client of the subscriber (284, 203-208, 172-185). [None]: bytes behind a buffer are read. *)
Definition relay (len : nat) (b : list N) : option (list N) := match text b with Some m => text (store len m) | None => None end.
