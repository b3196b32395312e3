(** Model: what happens before what when fibers synchronize with barrier::wait() (src/barrier.cpp:30-44). Barrier.v is the class with its wait queues.
    [view], the views of the spinlocks and the simplifications are those of MutexHb.v: mtx_ and cond_ without their queues, a suspended fiber may be resumed at any time and the wakeup adds nothing to its view. cycle_ is an unbounded number. *)
From Coq Require Import List Arith Bool.
From Verif Require Import Base MutexHb.
Import ListNotations.

(** wait(): [BLock]: line 32; [BBody]: lines 33-36; [BUnlT]: line 37; [BNot]: line 38; [BPred]: line 42, the predicate; [BWait]: condition_variable.hpp:73-75; [BSusp]: suspended there; [BRelock]: condition_variable.hpp:79; [BUnlF]: line 43, destructor of lk. c: the local variable cycle; k (model only): the number of the call, in the order of line 34. *)
Inductive bpc := BIdle | BLock | BBody | BUnlT (k c : nat) | BNot (k c : nat) | BPred (k c : nat) | BWait (k c : nat) | BSusp (k c : nat) | BRelock (k c : nat) | BUnlF (k c : nat).
(** Newest first. [AAct t n]: action n of t; [AArr t k]: line 34 of call k; [ARet t k b w]: call k returns b, w: the actions that happen before; [ARace t]: data race on current_ or cycle_. *)
Inductive aevent := AAct (t n : nat) | AArr (t k : nat) | ARet (t k : nat) (b : bool) (w : list nat) | ARace (t : nat).
(** current_, cycle_ (barrier.hpp:26-27) and the accesses to them; owner_ of mtx_, the views of the spinlocks of mtx_ and cond_; [arr] (model only): the number of arrivals. *)
Record bst := mkB { cur : nat; cyc : nat; bacc : list nat; bown : option nat; bmv : list nat; bcv : list nat; arr : nat; bview : nat -> list nat; bnext : nat; bpcs : nat -> bpc; blog : list aevent }.
(** [BCall t]: t calls wait(). *)
Inductive blabel := BAct (t : nat) | BCall (t : nat) | BRun (t : nat) | BWake (t : nat).
(** barrier.cpp:21-23. *)
Definition binit (n : nat) : bst := mkB n 0 [] None [] [] 0 (fun _ => []) 0 (fun _ => BIdle) [].
(** Model only: t goes on at p with view w; the owner and the view of mtx_ become o and m. *)
Definition bgo (s : bst) (t : nat) (p : bpc) (o : option nat) (m c w : list nat) (e : list aevent) : bst :=
  mkB (cur s) (cyc s) (bacc s) o m c (arr s) (upd (bview s) t w) (bnext s) (upd (bpcs s) t p) (e ++ blog s).
(** mtx_.lock() (mutex.cpp:29-40): p if it succeeds; otherwise t is suspended and tries again later. *)
Definition block (s : bst) (t : nat) (p : bpc) : bst :=
  let w := bmv s ++ bview s t in
  match bown s with None => bgo s t p (Some t) w (bcv s) w [] | Some _ => bgo s t (bpcs s t) (bown s) w (bcv s) w [] end.
(** mtx_.unlock() (mutex.cpp:65-73). *)
Definition bunlock (s : bst) (t : nat) (p : bpc) (e : list aevent) : bst :=
  let w := bmv s ++ bview s t in bgo s t p None w (bcv s) w e.
(** Model only: t accesses current_ and cycle_, writes a and b, goes on at p. *)
Definition btouch (s : bst) (t a b k : nat) (p : bpc) (e : list aevent) : bst :=
  if ordered (bacc s) (bview s t) then mkB a b (bnext s :: bacc s) (bown s) (bmv s) (bcv s) k (upd (bview s) t (bnext s :: bview s t)) (S (bnext s)) (upd (bpcs s) t p) (e ++ blog s)
  else mkB (cur s) (cyc s) (bacc s) (bown s) (bmv s) (bcv s) (arr s) (bview s) (bnext s) (upd (bpcs s) t BIdle) (ARace t :: blog s).
(** One step. *)
Definition bstep (n : nat) (s : bst) (l : blabel) : option bst :=
  match l with
  | BAct t => match bpcs s t with BIdle => Some (mkB (cur s) (cyc s) (bacc s) (bown s) (bmv s) (bcv s) (arr s) (upd (bview s) t (bnext s :: bview s t)) (S (bnext s)) (bpcs s) (AAct t (bnext s) :: blog s)) | _ => None end
  | BCall t => match bpcs s t with BIdle => Some (bgo s t BLock (bown s) (bmv s) (bcv s) (bview s t) []) | _ => None end
  | BWake t => match bpcs s t with BSusp k c => Some (bgo s t (BRelock k c) (bown s) (bmv s) (bcv s) (bview s t) []) | _ => None end
  | BRun t => match bpcs s t with
      | BLock => Some (block s t BBody)
      | BBody => if pred (cur s) =? 0
          then Some (btouch s t n (S (cyc s)) (S (arr s)) (BUnlT (arr s) (cyc s)) [AArr t (arr s)])
          else Some (btouch s t (pred (cur s)) (cyc s) (S (arr s)) (BPred (arr s) (cyc s)) [AArr t (arr s)])
      | BUnlT k c => Some (bunlock s t (BNot k c) [])
      | BNot k c => let w := bcv s ++ bview s t in Some (bgo s t BIdle (bown s) (bmv s) w w [ARet t k true w])
      | BPred k c => Some (btouch s t (cur s) (cyc s) (arr s) (if c =? cyc s then BWait k c else BUnlF k c) [])
      | BWait k c => let w := bcv s ++ bmv s ++ bview s t in Some (bgo s t (BSusp k c) None w w w [])
      | BRelock k c => Some (block s t (BPred k c))
      | BUnlF k c => Some (bunlock s t BIdle [ARet t k false (bmv s ++ bview s t)])
      | _ => None end
  end.
