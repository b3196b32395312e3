(** Model: the constructor of algo::work_stealing (src/algo/work_stealing.cpp, lines 26-47) called by any number of threads, with its static members counter_ and schedulers_ and its static thread_barrier (ThreadBarrier.v). All calls pass the same [n] as thread_count. An access to schedulers_ with an index that is not below its size is the distinct outcome [Crashed]. Simplified: counter_ does not wrap around (2^32 calls); two threads never construct at the same address. *)
From Coq Require Import List Arith Bool.
From Verif Require Import Base ThreadBarrier.
Import ListNotations.

(** Construction [t] (one object, one call). [Counted i]: id_ = i (line 37). [Inited i]: after call_once (43). [Registered i]: after line 45, about to call b.wait(). [Entered i]: in b.wait() (46) or returned from it. [Crashed]: index out of bounds in line 45. *)
Inductive phase := Fresh | Counted (i : nat) | Inited (i : nat) | Registered (i : nat) | Entered (i : nat) | Crashed.
(** counter_ (26), size and entries of schedulers_ (27; [None] is nullptr), the static b (40), the constructions. *)
Record cst := mkC { counter : nat; size : nat; regs : nat -> option nat; bar : st; ph : nat -> phase }.
(** Lines 37; 40-43; 45; one step of b.wait(). *)
Inductive clabel := Count (t : nat) | Once (t : nat) | Register (t : nat) | Bar (l : label).

(** Before the first call; lines 26, 27. *)
Definition cinit (n : nat) : cst := mkC 0 0 (fun _ => None) (init n) (fun _ => Fresh).

Definition cstep (n : nat) (s : cst) (l : clabel) : option cst :=
  match l with
  | Count t =>
      match ph s t with
      | Fresh => Some (mkC (S (counter s)) (size s) (regs s) (bar s) (upd (ph s) t (Counted (counter s))))
      | _ => None
      end
  | Once t =>
      match ph s t with
      | Counted i => Some (mkC (counter s) n (regs s) (bar s) (upd (ph s) t (Inited i)))
        (* The first call resizes schedulers_; by then no entry is written, so that the size alone changes. *)
      | _ => None
      end
  | Register t =>
      match ph s t with
      | Inited i =>
          if i <? size s
          then Some (mkC (counter s) (size s) (upd (regs s) i (Some t)) (bar s) (upd (ph s) t (Registered i)))
          else Some (mkC (counter s) (size s) (regs s) (bar s) (upd (ph s) t Crashed))
      | _ => None
      end
  | Bar (Enter t) =>
      match ph s t with
      | Registered i =>
          match step n (bar s) (Enter t) with
          | Some b => Some (mkC (counter s) (size s) (regs s) b (upd (ph s) t (Entered i)))
          | None => None
          end
      | _ => None
      end
  | Bar l =>
      match step n (bar s) l with
      | Some b => Some (mkC (counter s) (size s) (regs s) b (ph s))
      | None => None
      end
  end.
