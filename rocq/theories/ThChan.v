(** Model: the channel for threads of the benchmarks, performance/thread/buffered_channel.hpp:35-226 (a bounded queue for several producers and consumers after D. Vyukov, with a mutex and two condition variables for blocking). Every access to an atomic variable is one step.
    Simplified: sequential consistency; the indices do not wrap around; values are numbers and their moves do not throw; condition variables have no spurious wake-ups; releasing the mutex is part of the last step before it; close() is one step because all of it happens under the mutex. try_pop_() is not used by the class. *)
From Coq Require Import List Arith Bool.
From Verif Require Import Base.
Import ListNotations.

(** Newest first. [ECall...]: the call; [EEnq], [EDeq]: the compare_exchange_weak() of try_push_() or try_value_pop_() has succeeded (lines 84, 105); [EOk], [ERefused]: push() returns success or closed (lines 182, 174, 186); [ERet], [EThrow]: value_pop() returns or throws (lines 208, 213); [EUb]: value_pop() reads storage without object; [EClose]: close() (lines 164-169). *)
Inductive event := ECallPush (t v : nat) | EEnq (t v : nat) | EOk (t v : nat) | ERefused (t v : nat) | ECallPop (t : nat) | EDeq (t : nat) | ERet (t v : nat) | EThrow (t : nat) | EUb (t : nat) | EClose (t : nat).
(** Where a thread is in push() (lines 171-197) or value_pop() (lines 199-225). In [..Chk], [..Idx], [..Tst], [..Go] it has mtx_; in [..Go] the predicate has been false; the flag tells that it is in the predicate of wait(). *)
Inductive pc_t :=
  | Idle
  | PIn (v : nat) | PLoad (v : nat) | PCyc (v i : nat) | PCas (v i : nat) | PWrite (v i : nat) | PPub (v i : nat) | PNote (v : nat)
  | PFull (v : nat) | PChk (v : nat) (b : bool) | PIdx (v : nat) (b : bool) | PTst (v : nat) (b : bool) (i : nat) | PGo (v : nat) | PSleep (v : nat) | PWake (v : nat)
  | CLoad | CCyc (i : nat) | CCas (i : nat) | CRead (i : nat) | CFree (i v : nat) | CNote (v : nat)
  | CEmpty | CChk (b : bool) | CIdx (b : bool) | CTst (b : bool) (i : nat) | CGo | CSleep | CWake.
(** Members of lines 50-63: producer_idx_, consumer_idx_, the slots (cycle and storage), closed_, mtx_, waiting_consumer_; [nfull], [nempty]: the threads that wait in not_full_cnd_ and not_empty_cnd_. *)
Record st := mkSt { pidx : nat; cidx : nat; cyc : nat -> nat; stor : nat -> option nat; closed : bool; mtx : option nat; waiting : nat; nfull : list nat; nempty : list nat; pc : nat -> pc_t; log : list event }.
(** Constructor, lines 131-135: the capacities that are accepted. *)
Definition accepted (cap : nat) : bool := negb (Nat.eqb 0 cap || negb (Nat.eqb 0 (Nat.land cap (cap - 1)))).
(** Lines 136-140. *)
Definition init_state : st := mkSt 0 0 (fun i => i) (fun _ => None) false None 0 [] [] (fun _ => Idle) [].
(** [Run t]: the next step of t; [Spur t]: its compare_exchange_weak() fails spuriously; [Note t u]: its notify_one() wakes u. *)
Inductive label := Push (t v : nat) | Pop (t : nat) | Close (t : nat) | Run (t : nat) | Spur (t : nat) | Note (t u : nat).

(** Other values of the components of the state (model only). *)
Definition go (s : st) (t : nat) (p : pc_t) : st := mkSt (pidx s) (cidx s) (cyc s) (stor s) (closed s) (mtx s) (waiting s) (nfull s) (nempty s) (upd (pc s) t p) (log s).
Definition emit (s : st) (e : event) : st := mkSt (pidx s) (cidx s) (cyc s) (stor s) (closed s) (mtx s) (waiting s) (nfull s) (nempty s) (pc s) (e :: log s).
Definition lock (s : st) (m : option nat) : st := mkSt (pidx s) (cidx s) (cyc s) (stor s) (closed s) m (waiting s) (nfull s) (nempty s) (pc s) (log s).
Definition wait_n (s : st) (w : nat) : st := mkSt (pidx s) (cidx s) (cyc s) (stor s) (closed s) (mtx s) w (nfull s) (nempty s) (pc s) (log s).
Definition sleepers (s : st) (a b : list nat) : st := mkSt (pidx s) (cidx s) (cyc s) (stor s) (closed s) (mtx s) (waiting s) a b (pc s) (log s).
Definition set_cyc (s : st) (k n : nat) : st := mkSt (pidx s) (cidx s) (upd (cyc s) k n) (stor s) (closed s) (mtx s) (waiting s) (nfull s) (nempty s) (pc s) (log s).
Definition set_stor (s : st) (k v : nat) : st := mkSt (pidx s) (cidx s) (cyc s) (upd (stor s) k (Some v)) (closed s) (mtx s) (waiting s) (nfull s) (nempty s) (pc s) (log s).
Definition set_idx (s : st) (p c : nat) : st := mkSt p c (cyc s) (stor s) (closed s) (mtx s) (waiting s) (nfull s) (nempty s) (pc s) (log s).
(** A thread that has been notified. *)
Definition woken (p : pc_t) : pc_t := match p with PSleep v => PWake v | CSleep => CWake | _ => p end.
(** One thread less in a condition variable. *)
Definition without (u : nat) (l : list nat) : list nat := remove Nat.eq_dec u l.

Section Cap.
Variable cap : nat.
(** & slots_[idx & (capacity_ - 1)], lines 67, 72, 80, 101. *)
Definition slot (i : nat) : nat := Nat.land i (cap - 1).

(** One step of a thread; [mtx s] has to be free where the thread locks it. *)
Definition run (s : st) (t : nat) : option st :=
  match pc s t with
  | Idle => None
  (* push(): lines 173-175 *)
  | PIn v => if closed s then Some (emit (go s t Idle) (ERefused t v)) else Some (go s t (PLoad v))
  (* try_push_(): line 78 *)
  | PLoad v => Some (go s t (PCyc v (pidx s)))
  (* lines 80-91; PFull: line 88 *)
  | PCyc v i => Some (go s t (if Nat.eqb (cyc s (slot i)) i then PCas v i else if Nat.ltb (cyc s (slot i)) i then PFull v else PLoad v))
  (* lines 84-86; a failed compare_exchange_weak() loads the value *)
  | PCas v i => if Nat.eqb (pidx s) i then Some (emit (go (set_idx s (S i) (cidx s)) t (PWrite v i)) (EEnq t v)) else Some (go s t (PCyc v (pidx s)))
  (* line 93 *)
  | PWrite v i => Some (go (set_stor s (slot i) v) t (PPub v i))
  (* line 94 *)
  | PPub v i => Some (go (set_cyc s (slot i) (S i)) t (PNote v))
  (* lines 178-182, nobody to be notified *)
  | PNote v => match mtx s with None => if Nat.eqb 0 (waiting s) || match nempty s with [] => true | _ => false end then Some (emit (go s t Idle) (EOk t v)) else None | Some _ => None end
  (* line 184 *)
  | PFull v => match mtx s with None => Some (go (lock s (Some t)) t (PChk v false)) | Some _ => None end
  (* lines 185-187; is_closed() in line 191 *)
  | PChk v b => if closed s then (if b then Some (go (lock s None) t (PIn v)) else Some (emit (go (lock s None) t Idle) (ERefused t v))) else Some (go s t (PIdx v b))
  (* is_full_(): line 66 *)
  | PIdx v b => Some (go s t (PTst v b (pidx s)))
  (* line 67; lines 188-190 and 191 *)
  | PTst v b i => if Nat.ltb (cyc s (slot i)) i then Some (go s t (if b then PGo v else PChk v true)) else Some (go (lock s None) t (PIn v))
  (* line 191: wait() unlocks mtx_ and blocks at once *)
  | PGo v => Some (sleepers (go (lock s None) t (PSleep v)) (t :: nfull s) (nempty s))
  | PSleep v => None
  (* wait() locks mtx_ again *)
  | PWake v => match mtx s with None => Some (go (lock s (Some t)) t (PChk v true)) | Some _ => None end
  (* value_pop(): try_value_pop_(): line 99 *)
  | CLoad => Some (go s t (CCyc (cidx s)))
  (* lines 101-112 *)
  | CCyc i => Some (go s t (if Nat.eqb (cyc s (slot i)) (S i) then CCas i else if Nat.ltb (cyc s (slot i)) (S i) then CEmpty else CLoad))
  (* lines 105-107 *)
  | CCas i => if Nat.eqb (cidx s) i then Some (emit (go (set_idx s (pidx s) (S i)) t (CRead i)) (EDeq t)) else Some (go s t (CCyc (cidx s)))
  (* line 205 *)
  | CRead i => match stor s (slot i) with Some v => Some (go s t (CFree i v)) | None => Some (emit (go s t Idle) (EUb t)) end
  (* line 206 *)
  | CFree i v => Some (go (set_cyc s (slot i) (i + cap)) t (CNote v))
  (* lines 207-208, nobody to be notified *)
  | CNote v => match nfull s with [] => Some (emit (go s t Idle) (ERet t v)) | _ => None end
  (* lines 210-211 *)
  | CEmpty => match mtx s with None => Some (go (wait_n (lock s (Some t)) (S (waiting s))) t (CChk false)) | Some _ => None end
  (* lines 212-214; is_closed() in line 218 and line 219 *)
  | CChk b => if closed s then (if b then Some (go (wait_n (lock s None) (pred (waiting s))) t CLoad) else Some (emit (go (lock s None) t Idle) (EThrow t))) else Some (go s t (CIdx b))
  (* is_empty_(): line 71 *)
  | CIdx b => Some (go s t (CTst b (cidx s)))
  (* line 72; lines 215-217 and 218-219 *)
  | CTst b i => if Nat.ltb (cyc s (slot i)) (S i) then Some (go s t (if b then CGo else CChk true)) else if b then Some (go (wait_n (lock s None) (pred (waiting s))) t CLoad) else Some (go (lock s None) t CLoad)
  (* line 218 *)
  | CGo => Some (sleepers (go (lock s None) t CSleep) (nfull s) (t :: nempty s))
  | CSleep => None
  | CWake => match mtx s with None => Some (go (lock s (Some t)) t (CChk true)) | Some _ => None end
  end.
(** One step. *)
Definition step (s : st) (l : label) : option st :=
  match l with
  | Push t v => match pc s t with Idle => Some (emit (go s t (PIn v)) (ECallPush t v)) | _ => None end
  | Pop t => match pc s t with Idle => Some (emit (go s t CLoad) (ECallPop t)) | _ => None end
  (* close(): lines 164-169 *)
  | Close t => match pc s t, mtx s with Idle, None => Some (mkSt (pidx s) (cidx s) (cyc s) (stor s) true None (waiting s) [] [] (fun u => woken (pc s u)) (EClose t :: log s)) | _, _ => None end
  | Run t => run s t
  | Spur t => match pc s t with PCas v i => Some (go s t (PCyc v (pidx s))) | CCas i => Some (go s t (CCyc (cidx s))) | _ => None end
  | Note t u => match pc s t with
      (* lines 178-182 *)
      | PNote v => match mtx s with None => if Nat.ltb 0 (waiting s) && existsb (Nat.eqb u) (nempty s) then Some (emit (go (sleepers (go s u (woken (pc s u))) (nfull s) (without u (nempty s))) t Idle) (EOk t v)) else None | Some _ => None end
      (* line 207: without mtx_ *)
      | CNote v => if existsb (Nat.eqb u) (nfull s) then Some (emit (go (sleepers (go s u (woken (pc s u))) (without u (nfull s)) (nempty s)) t Idle) (ERet t v)) else None
      | _ => None end
  end.
End Cap.
