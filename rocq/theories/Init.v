(** Model: the counter that creates and destroys the runtime (main context, scheduler, dispatcher) of one thread, src/context.cpp:70-152. All variables are thread_local, so there is no interleaving.
    Simplified: which context is active ([active_]) is only tracked up to the runtime it belongs to; deinitialize() is taken to run on the main context, as its assertion (112) demands. std::size_t counter_ does not overflow: there are at most two initializer objects at a time (context.cpp:129, 150). *)
From Coq Require Import List Arith Bool.
Import ListNotations.

(** The function-local thread_local object in active() (context.cpp:150): not yet constructed, alive, destroyed at the end of the thread. *)
Inductive static_obj := NotYet | Alive | Dead.
(** Newest first. *)
Inductive event :=
  | Created (r : nat) | Destroyed (r : nat)   (* runtime r *)
  | RetActive (o : option nat)                (* active() returns a context of runtime r; nullptr = None *)
  | RetInit (b : bool).                       (* initialize_thread() returns *)
Record st := mkSt {
  counter : nat;                (* context.cpp:73, 121 *)
  active_ : option nat;         (* context.cpp:72, 120 *)
  stat : static_obj;            (* context.cpp:150 *)
  fresh : nat;                  (* name of the next runtime *)
  bad : bool;                   (* a null pointer was dereferenced *)
  log : list event
}.
Definition init_state : st := mkSt 0 None NotYet 0 false [].

(** context.cpp:95-107 *)
Definition initialize (s : st) : st := mkSt (counter s) (Some (fresh s)) (stat s) (S (fresh s)) (bad s) (Created (fresh s) :: log s).
(** context.cpp:109-116; the destructor of the scheduler calls active() (scheduler.cpp:103, 108), which would construct the object of active() if it had not been constructed before (then its assertion fails), and sets active_ to nullptr (scheduler.cpp:114, context.cpp:154-157). *)
Definition deinitialize (s : st) : st :=
  match active_ s, stat s with
  | None, _ | _, NotYet => mkSt (counter s) None (stat s) (fresh s) true (log s)
  | Some r, _ => mkSt (counter s) None (stat s) (fresh s) (bad s) (Destroyed r :: log s)
  end.
(** context.cpp:78-82 *)
Definition ctor (s : st) : st :=
  let s1 := mkSt (S (counter s)) (active_ s) (stat s) (fresh s) (bad s) (log s) in
  if counter s =? 0 then initialize s1 else s1.
(** context.cpp:84-88 *)
Definition dtor (s : st) : st :=
  let s1 := mkSt (counter s - 1) (active_ s) (stat s) (fresh s) (bad s) (log s) in
  if counter s - 1 =? 0 then deinitialize s1 else s1.
Definition set_stat (s : st) (x : static_obj) : st := mkSt (counter s) (active_ s) x (fresh s) (bad s) (log s).
Definition emit (s : st) (e : event) : st := mkSt (counter s) (active_ s) (stat s) (fresh s) (bad s) (e :: log s).
(** context.cpp:150: constructed when control passes for the first time, never again. *)
Definition touch_static (s : st) : st := match stat s with NotYet => set_stat (ctor s) Alive | _ => s end.
(** context.cpp:148-152 *)
Definition active (s : st) : st := let s1 := touch_static s in emit s1 (RetActive (active_ s1)).
(** context.cpp:123-145; in the first branch the local initializer (129) is destroyed at 136. In the second, set_algo is called on the scheduler of the active context (141). *)
Definition initialize_thread (s : st) : st :=
  if counter s =? 0
  then emit (dtor (touch_static (ctor s))) (RetInit true)
  else let s1 := touch_static s in
       emit (match active_ s1 with None => mkSt (counter s1) None (stat s1) (fresh s1) true (log s1) | Some _ => s1 end) (RetInit false).

Inductive label :=
  | Active | Init    (* the calls *)
  | Exit.            (* the thread ends: the object of active() is destroyed. Calls are still possible afterwards, from the destructors of other thread_local objects. *)
Definition step (s : st) (l : label) : option st :=
  match l with
  | Active => Some (active s)
  | Init => Some (initialize_thread s)
  | Exit => match stat s with Alive => Some (dtor (set_stat s Dead)) | NotYet => Some (set_stat s Dead) | Dead => None end
  end.
