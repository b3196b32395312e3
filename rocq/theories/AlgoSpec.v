(** Specification vocabulary for the scheduling algorithms. *)
From Coq Require Import List Arith Bool.
From Verif Require Import Base Algo.
Import ListNotations.

(** How often awakened( c) was called by a scheduler, and how often c was handed to one. *)
Fixpoint awakes (lg : list event) (c : nat) : nat :=
  match lg with
  | [] => 0
  | EAwake _ c' :: lg' => (if c =? c' then 1 else 0) + awakes lg' c
  | _ :: lg' => awakes lg' c
  end.
Fixpoint picks (lg : list event) (c : nat) : nat :=
  match lg with
  | [] => 0
  | EPick _ (Some c') :: lg' => (if c =? c' then 1 else 0) + picks lg' c
  | _ :: lg' => picks lg' c
  end.
(** The same as sequences, oldest first, of the contexts that satisfy [f] and the threads that satisfy [g]. *)
Fixpoint awoken (f g : nat -> bool) (lg : list event) : list nat :=
  match lg with
  | [] => []
  | EAwake t c :: lg' => awoken f g lg' ++ (if f c && g t then [c] else [])
  | _ :: lg' => awoken f g lg'
  end.
Fixpoint picked (f g : nat -> bool) (lg : list event) : list nat :=
  match lg with
  | [] => []
  | EPick t (Some c) :: lg' => picked f g lg' ++ (if f c && g t then [c] else [])
  | _ :: lg' => picked f g lg'
  end.

(** Where a ready context can be. *)
Inductive place := InQueue (a : nat) | InShared | InHand (t : nat).
Definition stored (s : st) (c : nat) (p : place) : Prop :=
  match p with
  | InQueue a => In c (q s a)
  | InShared => In c (shq s)
  | InHand t => exists b, pc s t = SetPush b c
  end.
(** The object a thread is just installing. *)
Definition installing (s : st) (t b : nat) : Prop :=
  match pc s t with
  | Steal _ _ (Some b') | SetTest b' | SetPick b' | SetPush b' _ => b = b'
  | _ => False
  end.

(** Configurations the constructors produce (work_stealing.cpp:36-47; numa work_stealing.cpp:66-89 for a topology that has the node and CPU of the object): every CPU in the lists has a work_stealing object, the list of local CPUs is not empty, and the own CPU is not remote. *)
Definition is_stealing (k : akind) : bool := match k with Stealing _ _ _ => true | _ => false end.
Definition well_configured (kind : nat -> akind) (sched : nat -> nat -> option nat) : Prop :=
  forall a own loc remote, kind a = Stealing own loc remote ->
    loc <> [] /\ ~ In own remote /\ forall i, In i (loc ++ remote) -> exists v, sched a i = Some v /\ is_stealing (kind v) = true.
(** Each thread begins with an object of its own. *)
Definition well_started (cur0 : nat -> nat) (owner0 : nat -> option nat) : Prop := forall t, owner0 (cur0 t) = Some t.

(** The thread that was given c last. *)
Fixpoint last_pick (lg : list event) (c : nat) : option nat :=
  match lg with
  | [] => None
  | EPick t (Some c') :: lg' => if c =? c' then Some t else last_pick lg' c
  | _ :: lg' => last_pick lg' c
  end.
(** The contexts pick_next() of object [a] returns when it is called again and again, nothing else happens and nothing is stolen. *)
Definition order (kind : nat -> akind) (s : st) (a : nat) : list nat :=
  match kind a with SharedWork => shq s ++ q s a | _ => q s a end.
(** How many rounds of the search [t] makes in which it draws another scheduler than its own. *)
Definition foreign (kind : nat -> akind) (s : st) (t : nat) (l : label) : bool :=
  match l with
  | Draw t' d =>
      (t =? t') && match pc s t, kind (cur s t) with
                   | Steal rem _ _, Stealing own loc remote => match nth_error (if rem then remote else loc) d with Some i => negb (i =? own) | None => false end
                   | _, _ => false
                   end
  | _ => false
  end.
Fixpoint tries (pinned : nat -> bool) (kind : nat -> akind) (sched : nat -> nat -> option nat) (s : st) (t : nat) (ls : list label) : nat :=
  match ls with
  | [] => 0
  | l :: ls' => (if foreign kind s t l then 1 else 0) + match step pinned kind sched s l with Some s' => tries pinned kind sched s' t ls' | None => 0 end
  end.
Definition searching (s : st) (t : nat) : Prop := match pc s t with Steal _ _ _ => True | _ => False end.
Definition ticks (t : nat) (ls : list label) : nat := length (filter (fun l => match l with Tick t' => t =? t' | _ => false end) ls).

(** What pick_next() of shared_work may return to [t], given the history: a worker while there is one that was awakened and not picked, in the order of awakened(); else the oldest ready pinned context of the thread; nullptr only if there is neither. *)
Definition any (_ : nat) : bool := true.
Definition shared_next (pinned : nat -> bool) (lg : list event) (t : nat) (o : option nat) : Prop :=
  let worker c := negb (pinned c) in
  match o with
  | Some c =>
      if pinned c then awoken worker any lg = picked worker any lg /\ exists r, awoken pinned (Nat.eqb t) lg = picked pinned (Nat.eqb t) lg ++ c :: r
      else exists r, awoken worker any lg = picked worker any lg ++ c :: r
  | None => awoken worker any lg = picked worker any lg /\ awoken pinned (Nat.eqb t) lg = picked pinned (Nat.eqb t) lg
  end.
Definition no_set (lg : list event) : Prop := forall t b, ~ In (ESet t b) lg.
(** Calls of pick_next() by [t]. *)
Definition calls (t : nat) (ls : list label) : nat := length (filter (fun l => match l with Pick t' => t =? t' | _ => false end) ls).
