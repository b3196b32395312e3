(** Model: topology() on the operating systems other than Linux (src/numa/windows/topology.cpp, solaris/topology.cpp, aix/topology.cpp, freebsd/topology.cpp) and pin_thread() on Windows (src/numa/windows/pin_thread.cpp:35-55). What the operating system reports is the input.
    Left out: failing system calls; src/numa/hpux/topology.cpp does not compile (std::system_errors, map[id] with id undeclared, lines 38-43). *)
From Coq Require Import List Arith NArith Bool.
Import ListNotations.

(** A node (numa/topology.hpp:26-30). *)
Record node := mkNode { id : nat; cpus : list nat; dist : list nat }.
(** std::set::insert() of n.logical_cpus (numa/topology.hpp:28); the order does not matter here. *)
Definition sins (x : nat) (l : list nat) : list nat := if existsb (Nat.eqb x) l then l else l ++ [x].
(** Inserts a list of CPUs into n.logical_cpus (windows/topology.cpp:114-116, solaris/topology.cpp:34-36). *)
Definition insert_all (l : list nat) : list nat := fold_left (fun s x => sins x s) l [].
(** "fake NUMA distance" (windows/topology.cpp:119-125, solaris/topology.cpp:66-72, aix/topology.cpp:69-75, freebsd/topology.cpp:43-49). *)
Definition fake_distance (topo : list node) : list node :=
  map (fun n => mkNode (id n) (cpus n) (map (fun i => if Nat.eqb (id n) i then 10 else 20) (seq 0 (length topo)))) topo.

(** compute_cpu_set() (windows/topology.cpp:91-99); w: number of bits of KAFFINITY. *)
Definition compute_cpu_set (w group : nat) (mask : nat -> bool) : list nat := insert_all (map (fun i => 64 * group + i) (filter mask (seq 0 w))).
(** What GetLogicalProcessorInformationEx( RelationNumaNode) reports: NodeNumber, Group and Mask (windows/topology.cpp:111-113); only the first group of a node is read. *)
Record winfo := mkW { wnode : nat; wgroup : nat; wmask : nat -> bool }.
(** topology() (windows/topology.cpp:107-127). *)
Definition topology_windows (w : nat) (l : list winfo) : list node := fake_distance (map (fun i => mkNode (wnode i) (insert_all (compute_cpu_set w (wgroup i) (wmask i))) []) l).
(** pin_thread() (windows/pin_thread.cpp:35-44): Group (a WORD) and Mask. *)
Definition pin_windows (cpu : N) : N * N := (N.modulo (N.div cpu 64) 65536, N.shiftl 1 (N.modulo cpu 64)).

(** topology() (freebsd/topology.cpp:26-51); size: CPU_SETSIZE. *)
Definition topology_freebsd (size : nat) (mask : nat -> bool) : list node := fake_distance [mkNode 0 (insert_all (filter mask (seq 0 size))) []].

(** topology() (aix/topology.cpp:23-77): rs_getrad() succeeds, R_NUMPROCS, R_MAXPROCS, and rs_op( RS_TESTRESOURCE) for the rads. *)
Definition topology_aix (maxnodes : nat) (rad : nat -> bool) (numprocs maxprocs : nat -> nat) (test : nat -> nat -> bool) : list node :=
  fake_distance (map (fun n => mkNode n (insert_all (filter (test n) (seq 0 (maxprocs n)))) []) (filter (fun n => rad n && negb (numprocs n =? 0)) (seq 0 maxnodes))).

(** A locality group of Solaris with its own CPUs; mem: it has memory of its own (solaris/topology.cpp:28). *)
Inductive lgrp := Lgrp (i : nat) (own : list nat) (mem : bool) (children : list lgrp).
(** lgrp_cpus( LGRP_CONTENT_HIERARCHY): the CPUs of the group and of its descendants (solaris/topology.cpp:23, 31). *)
Fixpoint all_cpus (g : lgrp) : list nat := match g with Lgrp _ own _ ch => own ++ flat_map all_cpus ch end.
(** explore() (solaris/topology.cpp:22-46). *)
Fixpoint explore (g : lgrp) : list node := match g with Lgrp i own mem ch => (if mem then [mkNode i (insert_all (own ++ flat_map all_cpus ch)) []] else []) ++ flat_map explore ch end.
(** topology() (solaris/topology.cpp:55-74). *)
Definition topology_solaris (g : lgrp) : list node := fake_distance (explore g).
