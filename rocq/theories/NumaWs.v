(** Model: the constructor and pick_next() of boost::fibers::numa::algo::work_stealing (src/numa/algo/work_stealing.cpp). Threads are numbered; the scheduler of thread t is t. A topology is a list of nodes: identifier and logical CPUs in ascending order (std::set). *)
From Coq Require Import List Arith Bool.
From Verif Require Import Base.
Import ListNotations.

(** numa::node: id and logical_cpus (include/boost/fiber/numa/topology.hpp:26-30); the distances are not modelled. *)
Definition node := (nat * list nat)%type.
(** get_local_cpus() (work_stealing.cpp:30-38). *)
Fixpoint local_cpus (id : nat) (topo : list node) : list nat :=
  match topo with [] => [] | (n, cs) :: r => if id =? n then cs else local_cpus id r end.
(** get_remote_cpus() (work_stealing.cpp:40-50). *)
Definition remote_cpus (id : nat) (topo : list node) : list nat := flat_map (fun nd => if id =? fst nd then [] else snd nd) topo.
(** The largest CPU (work_stealing.cpp:55-58): the last element of each set; [None]: rbegin() of an empty set is dereferenced. *)
Fixpoint max_cpu (topo : list node) : option nat :=
  match topo with
  | [] => Some 0
  | (_, []) :: _ => None
  | (_, c :: cs) :: r => option_map (Nat.max (last (c :: cs) 0)) (max_cpu r)
  end.
(** The number of threads the barrier waits for (work_stealing.cpp:77-81). *)
Definition thread_count (topo : list node) : nat := list_sum (map (fun nd => length (snd nd)) topo).

(** Where a thread is in the constructor: before call_once() (85), before the registration (87), before b.wait() (88), in it, behind it. *)
Inductive pc := Start | Inited | Regd | Waiting | Built.
(** schedulers_ ([None]: not initialised; an entry [None]: nullptr), the number of threads that have arrived at the barrier, the threads; [bad]: an access behind the array or of an empty set has happened. *)
Record st := mkSt { sch : option (list (option nat)); arrived : nat; pcs : nat -> pc; bad : bool }.
(** Before the first constructor: work_stealing.cpp:28. *)
Definition init : st := mkSt None 0 (fun _ => Start) false.
(** schedulers_[i] = v (work_stealing.cpp:87); [None]: behind the array. *)
Fixpoint set_nth (l : list (option nat)) (i v : nat) : option (list (option nat)) :=
  match l, i with
  | [], _ => None
  | _ :: r, 0 => Some (Some v :: r)
  | x :: r, S i' => option_map (cons x) (set_nth r i' v)
  end.
(** The steps of the constructor of thread [t] (work_stealing.cpp:85, 87, 88). *)
Inductive label := LOnce (t : nat) | LReg (t : nat) | LArrive (t : nat) | LPass (t : nat).
(** A step of the constructor in thread [t] for the CPU [cpu t]: std::call_once() of init_() (53-64, 84-85), the registration (87), the barrier (82, 88), which lets the threads pass when [thread_count topo] have arrived. The barrier itself: ThreadBarrier. pin_thread() (76): NumaOs. *)
Definition step (topo : list node) (cpu : nat -> nat) (s : st) (l : label) : option st :=
  match l with
  | LOnce t => match pcs s t with
      | Start => match sch s with
          | Some _ => Some (mkSt (sch s) (arrived s) (upd (pcs s) t Inited) (bad s))
          | None => match max_cpu topo with
              | Some m => Some (mkSt (Some (repeat None (m + 1))) (arrived s) (upd (pcs s) t Inited) (bad s))
              | None => Some (mkSt (sch s) (arrived s) (pcs s) true)
              end
          end
      | _ => None end
  | LReg t => match pcs s t, sch s with
      | Inited, Some l => match set_nth l (cpu t) t with
          | Some l' => Some (mkSt (Some l') (arrived s) (upd (pcs s) t Regd) (bad s))
          | None => Some (mkSt (sch s) (arrived s) (pcs s) true)
          end
      | _, _ => None end
  | LArrive t => match pcs s t with Regd => Some (mkSt (sch s) (S (arrived s)) (upd (pcs s) t Waiting) (bad s)) | _ => None end
  | LPass t => match pcs s t with Waiting => if arrived s =? thread_count topo then Some (mkSt (sch s) (arrived s) (upd (pcs s) t Built) (bad s)) else None | _ => None end
  end.

(** How the search for a victim ends (work_stealing.cpp:107-156); each with the schedulers asked, oldest first: [Found] a context, [Nothing], [More]: the given random numbers are used up; [Bad]: an access behind an array, of a nullptr, or a failed assertion (125, 142, 144). *)
Inductive res := Found (acc : list nat) | Nothing (acc : list nat) | More (acc : list nat) | Bad.
(** schedulers_[c]->steal() (work_stealing.cpp:125-126, 144-146). *)
Definition victim (sc : list (option nat)) (c : nat) : option nat := match nth_error sc c with Some (Some w) => Some w | _ => None end.
(** The loops over the local CPUs (work_stealing.cpp:115-127): each random number is an index in local_cpus_ and whether steal() would give a context; a turn of the inner loop counts also if it hits the own CPU (117-122). [acc]: newest first. *)
Fixpoint steal_local (me : nat) (cpus : list nat) (sc : list (option nat)) (count : nat) (acc : list nat) (rnd : list (nat * bool)) : res :=
  match rnd with
  | [] => More (rev acc)
  | (i, ok) :: r => match nth_error cpus i with
      | None => Bad
      | Some c => if c =? me then steal_local me cpus sc (S count) acc r else
          match victim sc c with
          | None => Bad
          | Some w => if ok then Found (rev (w :: acc)) else if S count <? length cpus then steal_local me cpus sc (S count) (w :: acc) r else Nothing (rev (w :: acc))
          end
      end
  end.
(** The loop over the remote CPUs (work_stealing.cpp:133-147). *)
Fixpoint steal_remote (me : nat) (cpus : list nat) (sc : list (option nat)) (count : nat) (acc : list nat) (rnd : list (nat * bool)) : res :=
  match rnd with
  | [] => More (rev acc)
  | (i, ok) :: r => match nth_error cpus i with
      | None => Bad
      | Some c => if c =? me then Bad else
          match victim sc c with
          | None => Bad
          | Some w => if ok then Found (rev (w :: acc)) else if S count <? length cpus then steal_remote me cpus sc (S count) (w :: acc) r else Nothing (rev (w :: acc))
          end
      end
  end.
(** The two parts of pick_next() when the own queue is empty (work_stealing.cpp:107-156). *)
Definition steal (me nd : nat) (topo : list node) (sc : list (option nat)) (rnd1 rnd2 : list (nat * bool)) : res :=
  match steal_local me (local_cpus nd topo) sc 0 [] rnd1 with
  | Nothing acc => match remote_cpus nd topo with
      | [] => Nothing acc
      | _ => match steal_remote me (remote_cpus nd topo) sc 0 [] rnd2 with
             | Found a => Found (acc ++ a) | Nothing a => Nothing (acc ++ a) | More a => More (acc ++ a) | Bad => Bad end
      end
  | r => r
  end.
