(** Model: the calls that algorithm_with_properties and fiber_properties make when the scheduling algorithm of a thread is replaced (algo/algorithm.hpp:91-154, properties.cpp:22-34, properties.hpp:36-76, scheduler.cpp:322-329). One thread, any number of fibers, algorithms and property types.
    Simplified: the order of the ready queue is left to the environment; the dispatcher context is a fiber like the others. An old algorithm is destroyed when it is replaced (the scheduler holds the only reference, algorithm.hpp:75-87). *)
From Coq Require Import List Arith Bool.
From Verif Require Import Base.
Import ListNotations.

(** A scheduling algorithm. [Plain b]: without properties; b: its ready queue uses the ready hook of the contexts (round_robin.cpp:25, shared_work.cpp) or not (work_stealing.cpp: an array). [With t]: algorithm_with_properties< t>, which uses the ready hook (priority.cpp:111). *)
Inductive algo := Plain (b : bool) | With (t : nat).
(** Where a fiber is. *)
Inductive place := Nowhere | Running | Ready | Waiting.
(** Newest first. a: the number of an algorithm, c: a fiber, t: the type of a property object. *)
Inductive event :=
  | EAlgo (a : nat) (k : algo)       (* algorithm a is to become the one of the thread *)
  | EReady (a c : nat)               (* awakened( ctx) of algorithm a is called *)
  | EPicked (a c : nat)              (* pick_next() of algorithm a gives c *)
  | EAwakened (a c t : nat)          (* awakened( ctx, props) of algorithm a is called with a property object of type t *)
  | EChange (a c t : nat)            (* property_change( ctx, props) of algorithm a is called *)
  | EFreed (a c : nat)               (* a member function of the destroyed algorithm a is called *)
  | ENoAlgo (c : nat)                (* nullptr != algo_ fails (properties.cpp:23) *)
  | ENotSet (c : nat).               (* the fiber has no properties (fiber.hpp:218) *)
(** [fibers]: all fibers. [cur]: the algorithm of the thread; those with smaller numbers have been destroyed. [kind]: what they are. [prop c]: properties_ of fiber c: the type of the object and its algo_. *)
Record st := mkSt { fibers : list nat; cur : nat; kind : nat -> algo; at_ : nat -> place; prop : nat -> option (nat * option nat); log : list event }.
(** One fiber runs (0); algorithm 0 is installed. *)
Definition init_state (k : algo) : st := mkSt [0] 0 (fun _ => k) (upd (fun _ => Nowhere) 0 Running) (fun _ => None) [EAlgo 0 k].
(** [New c p]: a fiber is created (launch::post), with a property object of type t if p is Some t (fiber.hpp:112-172). [Yield c d], [Block c d]: the running fiber c gives way to d. [Wake c d]: the running fiber d wakes c. [SetAlgo k]: use_scheduling_algorithm(). [Notify c]: a property of c is changed and notify() called. *)
Inductive label := New (c : nat) (p : option nat) | Yield (c d : nat) | Block (c d : nat) | Wake (c : nat) | SetAlgo (k : algo) (order : list nat) | Notify (c : nat).

(** algorithm_with_properties::awakened( ctx), algorithm.hpp:106-127, or awakened( ctx) of an algorithm without properties, for algorithm a of kind k. *)
Definition awakened (a : nat) (k : algo) (s : st) (c : nat) : st :=
  match k with
  | Plain _ => mkSt (fibers s) (cur s) (kind s) (upd (at_ s) c Ready) (prop s) (EReady a c :: log s)
  | With t =>
      let u := match prop s c with Some (u, _) => u | None => t end in
      mkSt (fibers s) (cur s) (kind s) (upd (at_ s) c Ready) (upd (prop s) c (Some (u, Some a))) (EAwakened a c u :: EReady a c :: log s)
  end.
(** pick_next() of the current algorithm gives d, which is resumed. *)
Definition pick (s : st) (d : nat) : st := mkSt (fibers s) (cur s) (kind s) (upd (at_ s) d Running) (prop s) (EPicked (cur s) d :: log s).
(** Take the ready fibers out of the old algorithm, one after the other, and give them to the new one (scheduler.cpp:325-327). None if order does not consist of ready fibers. *)
Fixpoint transfer (a : nat) (k : algo) (s : st) (order : list nat) : option st :=
  match order with
  | [] => Some s
  | c :: r => match at_ s c with
              | Ready => transfer a k (awakened a k (mkSt (fibers s) (cur s) (kind s) (at_ s) (prop s) (EPicked (cur s) c :: log s)) c) r
              | _ => None
              end
  end.
(** Is c ready (model only)? *)
Definition is_ready (s : st) (c : nat) : bool := match at_ s c with Ready => true | _ => false end.
(** No fiber twice (model only). *)
Fixpoint distinct (l : list nat) : bool := match l with [] => true | c :: r => negb (existsb (Nat.eqb c) r) && distinct r end.
(** [order] consists of the ready fibers, each once (model only). *)
Definition complete (s : st) (order : list nat) : bool :=
  distinct order && forallb (fun c => negb (is_ready s c) || existsb (Nat.eqb c) order) (fibers s).
(** scheduler::set_algo(), scheduler.cpp:322-329. [order]: the ready fibers in the order in which the old algorithm gives them. *)
Definition set_algo (s : st) (k : algo) (order : list nat) : option st :=
  if complete s order then
    match transfer (S (cur s)) k (mkSt (fibers s) (cur s) (kind s) (at_ s) (prop s) (EAlgo (S (cur s)) k :: log s)) order with
    | Some s' => Some (mkSt (fibers s') (S (cur s)) (upd (kind s) (S (cur s)) k) (at_ s') (prop s') (log s'))
    | None => None
    end
  else None.
(** Is the ready hook of c linked (context.cpp:385-388)? *)
Definition linked (s : st) (c : nat) : bool :=
  match at_ s c with Ready => match kind s (cur s) with Plain b => b | With _ => true end | _ => false end.
(** fiber_properties::notify(), properties.cpp:22-34: the algorithm that algo_ points to is called; property_change_() (algorithm.hpp:143-145) casts the properties to the type of the algorithm. *)
Definition notify (s : st) (c : nat) : st :=
  let out e := mkSt (fibers s) (cur s) (kind s) (at_ s) (prop s) (e :: log s) in
  match prop s c with
  | None => out (ENotSet c)
  | Some (_, None) => out (ENoAlgo c)
  | Some (t, Some a) =>
      if linked s c then
        if Nat.ltb a (cur s) then out (EFreed a c) else out (EChange a c t)
      else s
  end.
(** One step of the thread. *)
Definition step (s : st) (l : label) : option st :=
  match l with
  | New c p =>
      match at_ s c with
      | Nowhere => Some (awakened (cur s) (kind s (cur s)) (mkSt (c :: fibers s) (cur s) (kind s) (at_ s) (upd (prop s) c (match p with Some t => Some (t, None) | None => None end)) (log s)) c)
      | _ => None
      end
  (* scheduler::yield(), scheduler.cpp:243-257, context.cpp:205-216 *)
  | Yield c d => match at_ s c, at_ s d with Running, Ready => Some (awakened (cur s) (kind s (cur s)) (pick s d) c) | _, _ => None end
  (* scheduler::suspend(), scheduler.cpp:304-308 *)
  | Block c d => match at_ s c, at_ s d with
      | Running, Ready => let s' := pick s d in Some (mkSt (fibers s') (cur s') (kind s') (upd (at_ s') c Waiting) (prop s') (log s'))
      | _, _ => None end
  (* scheduler::schedule(), scheduler.cpp:174-193 *)
  | Wake c => match at_ s c with Waiting => Some (awakened (cur s) (kind s (cur s)) s c) | _ => None end
  | SetAlgo k order => set_algo s k order
  | Notify c => match at_ s c with Nowhere => None | _ => Some (notify s c) end
  end.
