(** Model: src/numa/linux/topology.cpp (reading the CPUs and their NUMA nodes) and the selection of local and remote CPUs in src/numa/algo/work_stealing.cpp.
    Not modelled: the file system (the contents of the file and the first matching directory entry of each CPU are inputs), the node distances (nothing reads them). *)
From Coq Require Import NArith List Ascii Bool.
Import ListNotations.
Open Scope N_scope.

(** What a call ends with. [OutOfFuel]: a loop has not finished within the number of rounds allowed; it runs forever if that is so for every number. *)
Inductive exn := InvalidArgument | OutOfRange.
Inductive outcome (T : Type) := Done (x : T) | Throw (e : exn) | OutOfFuel.
Arguments Done {T}. Arguments Throw {T}. Arguments OutOfFuel {T}.

(** std::set< std::uint32_t >: the elements in ascending order. *)
Fixpoint insert (x : N) (l : list N) : list N :=
  match l with
  | [] => [x]
  | y :: l' => if x <? y then x :: l else if x =? y then l else y :: insert x l'
  end.

Definition text := list ascii.
(** topology.cpp:104, 108: al::split with is_any_of( c), token_compress_off: adjacent separators delimit an empty token. *)
Fixpoint split (c : ascii) (l : text) : list text :=
  match l with
  | [] => [[]]
  | x :: l' => if Ascii.eqb x c then [] :: split c l'
               else match split c l' with t :: ts => (x :: t) :: ts | [] => [] end
  end.
(** std::isspace in the classic locale: 9-13 and 32. *)
Definition is_space (x : ascii) : bool := let n := N_of_ascii x in (n =? 32) || ((9 <=? n) && (n <=? 13)).
Fixpoint drop_space (l : text) : text := match l with x :: l' => if is_space x then drop_space l' else l | [] => [] end.
(** topology.cpp:106: al::trim *)
Definition trim (l : text) : text := rev (drop_space (rev (drop_space l))).

(** The digits at the beginning of [l] appended to the number [acc]; [None] if there is none. *)
Definition digit (x : ascii) : option N := let n := N_of_ascii x in if (48 <=? n) && (n <=? 57) then Some (n - 48) else None.
Fixpoint digits (acc : N) (l : text) : N := match l with x :: l' => match digit x with Some d => digits (acc * 10 + d) l' | None => acc end | [] => acc end.
(** std::stoul (base 10, unsigned long of 64 bits), used in topology.cpp:112, 115, 116. White space and a plus sign are skipped; a minus sign cannot occur, the text was split there. *)
Definition stoul (l : text) : outcome N :=
  let l := match drop_space l with x :: l' => if Ascii.eqb x "+" then l' else x :: l' | [] => [] end in
  match l with
  | [] => Throw InvalidArgument
  | x :: _ => match digit x with
              | None => Throw InvalidArgument
              | Some _ => let n := digits 0 l in if n <? 2 ^ 64 then Done n else Throw OutOfRange
              end
  end.
(** Conversion to std::uint32_t. *)
Definition u32 (n : N) : N := n mod 2 ^ 32.

(** topology.cpp:117-119; ++i wraps at 2^32. *)
Fixpoint range_loop (fuel : nat) (i last : N) (ids : list N) : option (list N) :=
  match fuel with
  | O => None
  | S f => if i <=? last then range_loop f (u32 (i + 1)) last (insert i ids) else Some ids
  end.

(** topology.cpp:105-121, the body of the loop over the entries. *)
Definition entry_ids (fuel : nat) (entry : text) (ids : list N) : outcome (list N) :=
  let v2 := split "-" (trim entry) in
  match v2 with
  | [t] => match stoul t with Done n => Done (insert (u32 n) ids) | Throw e => Throw e | OutOfFuel => OutOfFuel end
  | _ =>
      match stoul (hd [] v2) with
      | Done first =>
          match stoul (last v2 []) with
          | Done lst => match range_loop fuel (u32 first) (u32 lst) ids with Some r => Done r | None => OutOfFuel end
          | Throw e => Throw e
          | OutOfFuel => OutOfFuel
          end
      | Throw e => Throw e
      | OutOfFuel => OutOfFuel
      end
  end.
Fixpoint entries_ids (fuel : nat) (es : list text) (ids : list N) : outcome (list N) :=
  match es with
  | [] => Done ids
  | e :: es' => match entry_ids fuel e ids with Done ids' => entries_ids fuel es' ids' | Throw x => Throw x | OutOfFuel => OutOfFuel end
  end.
(** topology.cpp:101-123 *)
Definition ids_from_line (fuel : nat) (content : text) : outcome (list N) := entries_ids fuel (split "," content) [].

(** numa/topology.hpp:26-30, without the distances. *)
Record node := mkNode { id : N; logical_cpus : list N }.
(** topology.cpp:167-168, 176-178 on the std::map of the nodes: ordered by the id; operator[] creates the node if it is missing. *)
Fixpoint add_cpu (m : list node) (n c : N) : list node :=
  match m with
  | [] => [mkNode n [c]]
  | x :: m' => if n <? id x then mkNode n [c] :: m
               else if n =? id x then mkNode n (insert c (logical_cpus x)) :: m'
               else x :: add_cpu m' n c
  end.
(** topology.cpp:157-172; [node_of c]: the number in the first entry nodeN of the directory of cpu c, if there is one. *)
Definition collect (node_of : N -> option N) (cpus : list N) : list node :=
  fold_left (fun m c => match node_of c with Some n => add_cpu m n c | None => m end) cpus [].
(** topology.cpp:176-179 *)
Definition all_to_node_0 (cpus : list N) : list node := fold_left (fun m c => add_cpu m 0 c) cpus [].
(** topology.cpp:144-199; [content] is the first line of /sys/devices/system/cpu/online (empty if it cannot be read). *)
Definition topology (fuel : nat) (content : text) (node_of : N -> option N) : outcome (list node) :=
  match ids_from_line fuel content with
  | Done cpus =>
      match cpus with
      | [] => Done []
      | _ => Done (match collect node_of cpus with [] => all_to_node_0 cpus | m => m end)
      end
  | Throw e => Throw e
  | OutOfFuel => OutOfFuel
  end.

(** numa/algo/work_stealing.cpp:30-38 *)
Fixpoint get_local_cpus (node_id : N) (topo : list node) : list N :=
  match topo with
  | [] => []
  | n :: topo' => if node_id =? id n then logical_cpus n else get_local_cpus node_id topo'
  end.
(** numa/algo/work_stealing.cpp:40-50 *)
Fixpoint get_remote_cpus_from (acc : list N) (node_id : N) (topo : list node) : list N :=
  match topo with
  | [] => acc
  | n :: topo' => get_remote_cpus_from (if node_id =? id n then acc else acc ++ logical_cpus n) node_id topo'
  end.
Definition get_remote_cpus (node_id : N) (topo : list node) : list N := get_remote_cpus_from [] node_id topo.
