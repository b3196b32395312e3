(** Specification of CPU lists and topologies, independent of the parser. *)
From Coq Require Import NArith List Ascii Bool.
From Verif Require Import Numa.
Import ListNotations.
Open Scope N_scope.

(** A number in decimal notation, most significant digit first; leading zeros are allowed. *)
Fixpoint value (ds : list N) : N := match ds with [] => 0 | d :: ds' => d * 10 ^ N.of_nat (length ds') + value ds' end.
Definition numeral (ds : list N) : Prop := ds <> [] /\ (forall d, In d ds -> d < 10) /\ value ds < 2 ^ 32.
Definition write_num (ds : list N) : text := map (fun d => ascii_of_N (48 + d)) ds.

(** An entry of a CPU list: an id or a range of ids. *)
Inductive entry := One (a : list N) | Range (a b : list N).
Definition good (e : entry) : Prop := match e with One a => numeral a | Range a b => numeral a /\ numeral b end.
Definition covers (e : entry) (x : N) : Prop := match e with One a => x = value a | Range a b => value a <= x <= value b end.
Definition write_entry (e : entry) : text := match e with One a => write_num a | Range a b => write_num a ++ "-"%char :: write_num b end.
(** An entry with white space around it. *)
Definition padded (e : entry) (t : text) : Prop := exists l r, t = l ++ write_entry e ++ r /\ forallb is_space (l ++ r) = true.
Fixpoint join (ts : list text) : text := match ts with [] => [] | [t] => t | t :: ts' => t ++ ","%char :: join ts' end.
(** [line] is the list [es]. *)
Definition writes (es : list entry) (line : text) : Prop := exists ts, Forall2 padded es ts /\ line = join ts /\ es <> [].

(** All CPUs named in a topology. *)
Definition cpus_of (topo : list node) : list N := flat_map logical_cpus topo.
