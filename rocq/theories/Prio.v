(** Model: fiber properties (include/boost/fiber/properties.hpp, src/properties.cpp, algorithm_with_properties in include/boost/fiber/algo/algorithm.hpp:89-155) together with the only algorithm in /repo that uses them, priority_scheduler (examples/priority.cpp:77-216). One thread.
    Simplified: a switch and the awakened() call it ends with are one step, as no other fiber of the thread runs in between. A blocked context is woken by the running one, or, if it sleeps, by the dispatcher (timers: scheduler.cpp:65-95). The dispatcher never ends. *)
From Coq Require Import List Arith ZArith Bool.
From Verif Require Import Base.
Import ListNotations.

(** 0 is the main context, 1 the dispatcher context, the others are workers. *)
Definition main_c : nat := 0.
Definition disp_c : nat := 1.
(** Failed assertions: "fiber::properties not set" (fiber.hpp:218), nullptr != algo_ (properties.cpp:23); [NullNext]: pick_next() returned nullptr to a context that leaves the processor (scheduler.cpp:256, 239, 274). *)
Inductive failure := NotSet | NoAlgo | NullNext.
Inductive event := EReady (c : nat) | EPick (c : nat).
Record pst := mkP {
  run : nat;                         (* context::active() *)
  rq : list nat;                     (* rqueue_ (priority.cpp:82) *)
  props : nat -> option Z;           (* properties_ of the context (context.hpp:161) and its priority_ (priority.cpp:72) *)
  algo : nat -> bool;                (* algo_ of the properties is set (properties.hpp:41) *)
  blocked : nat -> bool;             (* waits for another fiber *)
  sleeping : nat -> bool;            (* waits for a timer *)
  gone : nat -> bool;
  started : list nat;
  failed : option failure;
  log : list event                   (* ghost, newest first *)
}.
Inductive label :=
  | Spawn (k : nat) (p : option Z)     (* fiber( launch::post, props, ...): fiber.hpp:128-175, fiber.cpp:23-32; p: the priority of the properties given *)
  | Launch (k : nat) (p : option Z)    (* fiber( launch::dispatch, props, ...): fiber.cpp:33-37 *)
  | Yield | Block | Sleep | Term       (* scheduler.cpp:243-257, 259-309, 216-240 *)
  | Wake (c : nat)                     (* context.cpp:319-340 *)
  | Timer (c : nat)                    (* sleep2ready_(): scheduler.cpp:65-95; only the dispatcher *)
  | Disp                               (* pick_next() by the dispatcher: scheduler.cpp:140-168 *)
  | SetPrio (c : nat) (p : Z)          (* f.properties< priority_props >().set_priority( p) *)
  | SetMine (p : Z).                   (* this_fiber::properties< priority_props >().set_priority( p) *)

(** get_priority(): priority.cpp:45-47. A context in the queue has properties. *)
Definition prio (s : pst) (c : nat) : Z := match props s c with Some p => p | None => 0%Z end.
(** awakened( ctx, props): priority.cpp:97-112: before the first context with lower priority *)
Fixpoint enqueue (pr : nat -> Z) (c : nat) (l : list nat) : list nat :=
  match l with
  | [] => [c]
  | d :: r => if (pr d <? pr c)%Z then c :: l else d :: enqueue pr c r
  end.
(** algorithm_with_properties::awakened( ctx): algorithm.hpp:109-129. new PROPS( ctx) has priority 0 (priority.cpp:38-43). *)
Definition awakened (s : pst) (c : nat) : pst :=
  let ps := match props s c with None => upd (props s) c (Some 0%Z) | Some _ => props s end in
  let pr d := match ps d with Some p => p | None => 0%Z end in
  mkP (run s) (enqueue pr c (rq s)) ps (upd (algo s) c true) (blocked s) (sleeping s) (gone s) (started s) (failed s) (EReady c :: log s).
(** pick_next(), and the switch to the result: priority.cpp:123-135, scheduler.cpp:256, 239, 274 *)
Definition switch (s : pst) : pst :=
  match rq s with
  | c :: r => mkP c r (props s) (algo s) (blocked s) (sleeping s) (gone s) (started s) (failed s) (EPick c :: log s)
  | [] => mkP (run s) [] (props s) (algo s) (blocked s) (sleeping s) (gone s) (started s) (Some NullNext) (log s)
  end.
(** scheduler::yield(): pick_next() first, then the previous context is awakened (scheduler.cpp:243-257, context.cpp:205-216). *)
Definition yield_ (s : pst) : pst :=
  match rq s with [] => switch s | _ => awakened (switch s) (run s) end.
(** boost::intrusive list: ready_unlink() (context.cpp:411-416) *)
Definition unlink (c : nat) (l : list nat) : list nat := filter (fun d => negb (d =? c)) l.
(** ready_is_linked(): context.cpp:385-388 *)
Definition linked (s : pst) (c : nat) : bool := existsb (Nat.eqb c) (rq s).
(** Record updates *)
Definition with_prio (s : pst) (c : nat) (p : Z) : pst := mkP (run s) (rq s) (upd (props s) c (Some p)) (algo s) (blocked s) (sleeping s) (gone s) (started s) (failed s) (log s).
Definition fails (s : pst) (f : failure) : pst := mkP (run s) (rq s) (props s) (algo s) (blocked s) (sleeping s) (gone s) (started s) (Some f) (log s).
(** set_priority() (priority.cpp:51-62), fiber_properties::notify() (properties.cpp:22-34), property_change() (priority.cpp:147-181) *)
Definition set_priority (s : pst) (c : nat) (q p : Z) : pst :=
  if (p =? q)%Z then s
  else let s1 := with_prio s c p in
       if negb (algo s c) then fails s1 NoAlgo
       else if linked s1 c
            then let s2 := mkP (run s1) (unlink c (rq s1)) (props s1) (algo s1) (blocked s1) (sleeping s1) (gone s1) (started s1) (failed s1) (log s1) in
                 mkP (run s2) (enqueue (prio s2) c (rq s2)) (props s2) (algo s2) (blocked s2) (sleeping s2) (gone s2) (started s2) (failed s2) (EReady c :: log s2)
            else s1.
(** worker_context( launch, properties, ...): context.hpp:459-470 *)
Definition create (s : pst) (k : nat) (p : option Z) : pst :=
  mkP (run s) (rq s) (upd (props s) k p) (upd (algo s) k false) (blocked s) (sleeping s) (gone s) (k :: started s) (failed s) (log s).
(** k has not been used for a fiber yet; no code of its own *)
Definition fresh (s : pst) (k : nat) : bool := (2 <=? k) && negb (existsb (Nat.eqb k) (started s)).

(** One step of the thread; see the lines cited at [label]. Nothing happens after a failed assertion. *)
Definition step (s : pst) (l : label) : option pst :=
  match failed s with
  | Some _ => None
  | None =>
  match l with
  | Spawn k p => if fresh s k && negb (run s =? disp_c) then Some (awakened (create s k p) k) else None
  | Launch k p =>
      if fresh s k && negb (run s =? disp_c)
      then let s1 := create s k p in
           Some (awakened (mkP k (rq s1) (props s1) (algo s1) (blocked s1) (sleeping s1) (gone s1) (started s1) (failed s1) (EPick k :: log s1)) (run s))
      else None
  | Yield => if run s =? disp_c then None else Some (yield_ s)
  | Block => if run s =? disp_c then None else Some (switch (mkP (run s) (rq s) (props s) (algo s) (upd (blocked s) (run s) true) (sleeping s) (gone s) (started s) (failed s) (log s)))
  | Sleep => if run s =? disp_c then None else Some (switch (mkP (run s) (rq s) (props s) (algo s) (blocked s) (upd (sleeping s) (run s) true) (gone s) (started s) (failed s) (log s)))
  | Term => if run s <? 2 then None else Some (switch (mkP (run s) (rq s) (props s) (algo s) (blocked s) (sleeping s) (upd (gone s) (run s) true) (started s) (failed s) (log s)))
  | Wake c => if blocked s c && negb (run s =? disp_c)
              then Some (awakened (mkP (run s) (rq s) (props s) (algo s) (upd (blocked s) c false) (sleeping s) (gone s) (started s) (failed s) (log s)) c)
              else None
  | Timer c => if sleeping s c && (run s =? disp_c)
               then Some (awakened (mkP (run s) (rq s) (props s) (algo s) (blocked s) (upd (sleeping s) c false) (gone s) (started s) (failed s) (log s)) c)
               else None
  | Disp => if run s =? disp_c then match rq s with [] => Some s | _ => Some (yield_ s) end else None
  | SetPrio c p =>
      if existsb (Nat.eqb c) (started s) && negb (run s =? disp_c)
      then match props s c with Some q => Some (set_priority s c q p) | None => Some (fails s NotSet) end
      else None
  | SetMine p =>
      if run s =? disp_c then None
      else match props s (run s) with
           | Some q => Some (set_priority s (run s) q p)
           | None => Some (yield_ s)   (* operations.hpp:52-69: yields first; the change is a later SetMine *)
           end
  end
  end.
(** initialize_thread(): the dispatcher is handed to awakened(), the main context runs: context.cpp:95-107, scheduler.cpp:349-357 *)
Definition init : pst := awakened (mkP main_c [] (fun _ => None) (fun _ => false) (fun _ => false) (fun _ => false) (fun _ => false) [] None []) disp_c.
