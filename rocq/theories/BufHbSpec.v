(** Specification for C139, over the log of BufHb.v (newest first). *)
From Coq Require Import List Arith.
From Verif Require Import BufHb.
Import ListNotations.

(** The actions of fiber t; all actions. *)
Definition acts_of (t : nat) (l : list bevent) : list nat := flat_map (fun e => match e with BAct u n => if Nat.eq_dec u t then [n] else [] | _ => [] end) l.
Definition all_acts (l : list bevent) : list nat := flat_map (fun e => match e with BAct _ n => [n] | _ => [] end) l.
(** The successful pushes, oldest first: the value, what the fiber had done before, what happens before the return. The same for pops. *)
Fixpoint pushes (l : list bevent) : list (nat * list nat * list nat) := match l with
  | [] => []
  | BPush t v w :: l => pushes l ++ [(v, acts_of t l, w)]
  | _ :: l => pushes l end.
Fixpoint pops (l : list bevent) : list (nat * list nat * list nat) := match l with
  | [] => []
  | BPop t v w :: l => pops l ++ [(v, acts_of t l, w)]
  | _ :: l => pops l end.
(** The k-th pop delivers the value of the k-th push, and what the pushing fiber had done happens before the return of the pop. *)
Definition delivered (l : list bevent) : Prop := length (pops l) <= length (pushes l) /\ forall k v a w v' a' w', nth_error (pushes l) k = Some (v, a, w) -> nth_error (pops l) k = Some (v', a', w') -> v' = v /\ incl a w'.
(** There are at most cap - 1 values in the channel, and what the fiber that pops the k-th value had done before happens before the return of the push that needs the room, number k + cap - 1 (a counting semaphore). *)
Definition bounded (cap : nat) (l : list bevent) : Prop := length (pushes l) < length (pops l) + cap /\ forall k v a w v' a' w', nth_error (pops l) k = Some (v, a, w) -> nth_error (pushes l) (k + (cap - 1)) = Some (v', a', w') -> incl a w'.
(** Who finds the channel closed knows what the fiber that closed it had done before, and all that was pushed has been popped or is still there. *)
Definition close_seen (l : list bevent) : Prop := forall l1 t w l2, l = l1 ++ BClosed t w :: l2 -> exists l3 u l4, l2 = l3 ++ BClose u :: l4 /\ incl (acts_of u l4) w.
(** After the channel has been closed nothing is pushed. *)
Definition shut (l : list bevent) : Prop := forall l1 t v w l2, l = l1 ++ BPush t v w :: l2 -> forall u, ~ In (BClose u) l2.
(** Actions have different numbers. *)
Definition distinct (l : list bevent) : Prop := NoDup (all_acts l).
Definition race_free (l : list bevent) : Prop := forall t, ~ In (BRace t) l.
