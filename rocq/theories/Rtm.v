(** Model: detail::spinlock_rtm (detail/spinlock_rtm.hpp, detail/rtm.hpp), spinlocks with lock elision by hardware transactions. Any number of threads, locks and data cells; threads read and write the cells inside and outside of critical sections, critical sections may be nested and overlap.
    The processor (not code of /repo): a transaction reads and writes through a buffer, [rs] and [ws] are its read-set and write-set; nested rtm_begin()/rtm_end() only count; the outermost rtm_end() writes the buffer to memory in one step; a transaction whose read-set or write-set is written by another thread is aborted, and it may be aborted at any other time; an abort undoes everything since the outermost rtm_begin(), including the control flow, and this rtm_begin() returns the status instead.
    Simplified: the delays (lines 57-67, 75-88) are left out; splk_.lock() (line 99) is the successful exchange only (see Ttas.v for the rest); memory orders are not modelled. *)
From Coq Require Import List Arith Bool.
From Verif Require Import Base.
Import ListNotations.

(** A memory location: data of the user, or splk_.state_ of a lock (line 29; 0 = unlocked, 1 = locked). *)
Inductive addr := D (a : nat) | W (l : nat).
Definition addr_eqb (x y : addr) : bool := match x, y with D a, D b | W a, W b => Nat.eqb a b | _, _ => false end.

(** rtm.hpp:29-38: the bits of the status that the code looks at. *)
Record status := mkStatus { explicit_abort : bool; may_retry : bool; memory_conflict : bool; nested_abort : bool }.
(** Status of an abort because of a conflict with another thread. *)
Definition conflict : status := mkStatus false true true false.
(** Status after rtm_abort_lock_not_free() (rtm.hpp:68-77) at the given depth. *)
Definition not_free (depth : nat) : status := mkStatus true false false (1 <? depth).

(** Where a thread is. [Idle]: user code. lock( l) after r failed transactions: [Begin] before rtm_begin() (line 42) or at the end of the loop (line 40); [Chk] before the load (44); [Failed] rtm_begin() has returned a status (53-97); [Spin] waits for the lock to be free (74); [Fall] splk_.lock() (99). try_lock( l): [TBegin] (103), [TChk] (108), [TFailed] returns false (104). [Unl]: unlock( l) has loaded v (117). *)
Inductive pc_t := Idle | Begin (l r : nat) | Chk (l r : nat) | Failed (l r : nat) (st : status) | Spin (l r : nat) | Fall (l : nat) | TBegin (l : nat) | TChk (l : nat) | TFailed (l : nat) | Unl (l v : nat).
(** Where the outermost rtm_begin() of a transaction was called. *)
Inductive origin := InLock (l r : nat) | InTry (l : nat).
(** Committed history, newest first. *)
Inductive event :=
  | EAcq (t l : nat)              (* lock() returns, or try_lock() returns true *)
  | ETryFail (t l : nat)          (* try_lock() returns false *)
  | ERel (t l : nat)              (* unlock() *)
  | ERead (t a v : nat)           (* the user reads v *)
  | EWrite (t a v : nat).
(** A running transaction; [h0]: the locks the thread had at its beginning; [tlog]: what it has done. *)
Record tx_t := mkTx { depth : nat; org : origin; h0 : list nat; rs : list (addr * nat); ws : list (addr * nat); tlog : list event }.
(** [tries] is a ghost: number of transactions started by the present call of lock(). *)
Record thr := mkThr { pc : pc_t; held : list nat; tx : option tx_t; tries : nat }.
(** [bad]: rtm_end() or rtm_abort() without transaction, or splk_.lock() inside of one. *)
Record st := mkSt { mem : addr -> nat; th : nat -> thr; bad : bool; log : list event }.

Inductive label :=
  | Lock (t l : nat)              (* call of lock() *)
  | TryLock (t l : nat)           (* call of try_lock() *)
  | Go (t : nat)                  (* next step of the call *)
  | Abort (t : nat) (s : status)  (* the processor aborts the transaction *)
  | Read (t a : nat)              (* user code reads a data cell *)
  | Write (t a v : nat)           (* user code writes a data cell *)
  | Unlock (t l : nat).           (* call of unlock(), the load in it *)

(** Buffer and memory: the processor. *)
Fixpoint look (b : list (addr * nat)) (x : addr) : option nat :=
  match b with [] => None | (y, v) :: b' => if addr_eqb x y then Some v else look b' x end.
Definition overlay (b : list (addr * nat)) (m : addr -> nat) : addr -> nat := fun x => match look b x with Some v => v | None => m x end.
Definition touches (x : tx_t) (a : addr) : bool := existsb (fun p => addr_eqb (fst p) a) (rs x) || existsb (fun p => addr_eqb (fst p) a) (ws x).
(** Continue after the outermost rtm_begin() with a status: lines 42 and 103. *)
Definition rollback (y : thr) (x : tx_t) (s : status) : thr :=
  mkThr (match org x with InLock l r => Failed l r s | InTry l => TFailed l end) (h0 x) None (tries y).
(** All other threads whose transaction touches one of the written locations are aborted. *)
Definition kill (f : nat -> thr) (t : nat) (xs : list addr) : nat -> thr := fun u =>
  if Nat.eqb u t then f u else
  match tx (f u) with
  | Some x => if existsb (touches x) xs then rollback (f u) x conflict else f u
  | None => f u
  end.
Definition poke (m : addr -> nat) (x : addr) (v : nat) : addr -> nat := fun y => if addr_eqb y x then v else m y.

Definition set_th (s : st) (t : nat) (y : thr) : st := mkSt (mem s) (upd (th s) t y) (bad s) (log s).
Definition with_pc (y : thr) (p : pc_t) : thr := mkThr p (held y) (tx y) (tries y).
(** A load of thread t: its value, and the thread afterwards (read-set). *)
Definition load (s : st) (y : thr) (a : addr) : nat * thr :=
  match tx y with
  | None => (mem s a, y)
  | Some x =>
      match look (ws x) a with
      | Some v => (v, y)
      | None => (mem s a, mkThr (pc y) (held y) (Some (mkTx (depth x) (org x) (h0 x) ((a, mem s a) :: rs x) (ws x) (tlog x))) (tries y))
      end
  end.
(** A store of thread t, now in state y. *)
Definition store (s : st) (t : nat) (y : thr) (a : addr) (v : nat) : st :=
  match tx y with
  | None => mkSt (poke (mem s) a v) (upd (kill (th s) t [a]) t y) (bad s) (log s)
  | Some x => set_th s t (mkThr (pc y) (held y) (Some (mkTx (depth x) (org x) (h0 x) (rs x) ((a, v) :: ws x) (tlog x))) (tries y))
  end.
(** Record an event: in the history, or for the time being in the transaction. *)
Definition record (s : st) (t : nat) (e : event) : st :=
  let y := th s t in
  match tx y with
  | None => mkSt (mem s) (th s) (bad s) (e :: log s)
  | Some x => set_th s t (mkThr (pc y) (held y) (Some (mkTx (depth x) (org x) (h0 x) (rs x) (ws x) (e :: tlog x))) (tries y))
  end.
(** rtm_begin() succeeds (rtm.hpp:42-54) *)
Definition rtm_begin (y : thr) (o : origin) (p : pc_t) : thr :=
  match tx y with
  | None => mkThr p (held y) (Some (mkTx 1 o (held y) [] [] [])) (match o with InLock _ _ => S (tries y) | InTry _ => tries y end)
  | Some x => mkThr p (held y) (Some (mkTx (S (depth x)) (org x) (h0 x) (rs x) (ws x) (tlog x))) (tries y)
  end.
(** rtm_end() (rtm.hpp:56-66) *)
Definition rtm_end (s : st) (t : nat) : st :=
  let y := th s t in
  match tx y with
  | None => mkSt (mem s) (th s) true (log s)
  | Some x =>
      if Nat.eqb (depth x) 1
      then mkSt (overlay (ws x) (mem s)) (upd (kill (th s) t (map fst (ws x))) t (mkThr (pc y) (held y) None (tries y))) (bad s) (tlog x ++ log s)
      else set_th s t (mkThr (pc y) (held y) (Some (mkTx (pred (depth x)) (org x) (h0 x) (rs x) (ws x) (tlog x))) (tries y))
  end.
(** The lock has been acquired. *)
Definition acquired (s : st) (t l : nat) : st := record (set_th s t (let y := th s t in mkThr Idle (l :: held y) (tx y) (tries y))) t (EAcq t l).

Section Rtm.
  Variable RT : nat.    (* BOOST_FIBERS_RETRY_THRESHOLD *)

  (** One step of lock(), try_lock() and unlock(). *)
  Definition go (s : st) (t : nat) : option st :=
    let y := th s t in
    match pc y with
    | Idle => None
    | Begin l r => (* 40, 42 *)
        Some (set_th s t (if r <? RT then rtm_begin y (InLock l r) (Chk l r) else with_pc y (Fall l)))
    | Chk l r => (* 44-50 *)
        let (v, y1) := load s y (W l) in
        if Nat.eqb v 0 then Some (acquired (set_th s t y1) t l)
        else match tx y1 with Some x => Some (set_th s t (rollback y1 x (not_free (depth x)))) | None => Some (mkSt (mem s) (th s) true (log s)) end
    | Failed l r c => (* 53-97 *)
        Some (set_th s t (with_pc y
          (if may_retry c || memory_conflict c then Begin l (S r)
           else if explicit_abort c && negb (nested_abort c) then Spin l r
           else Fall l)))
    | Spin l r => (* 74 *)
        Some (if Nat.eqb (mem s (W l)) 0 then set_th s t (with_pc y (Begin l (S r))) else s)
    | Fall l => (* 99 *)
        match tx y with
        | Some _ => Some (mkSt (mem s) (th s) true (log s))
        | None => if Nat.eqb (mem s (W l)) 0 then Some (acquired (store s t y (W l) 1) t l) else None
        end
    | TBegin l => (* 103 *)
        Some (set_th s t (rtm_begin y (InTry l) (TChk l)))
    | TChk l => (* 108-113 *)
        let (v, y1) := load s y (W l) in
        if Nat.eqb v 0 then Some (acquired (set_th s t y1) t l)
        else match tx y1 with Some x => Some (set_th s t (rollback y1 x (not_free (depth x)))) | None => Some (mkSt (mem s) (th s) true (log s)) end
    | TFailed l => (* 104 *)
        Some (record (set_th s t (with_pc y Idle)) t (ETryFail t l))
    | Unl l v => (* 117-121 *)
        let h := remove Nat.eq_dec l (held y) in
        let s1 := record (set_th s t (mkThr Idle h (tx y) (tries y))) t (ERel t l) in
        Some (if Nat.eqb v 0 then rtm_end s1 t else store s1 t (th s1 t) (W l) 0)
    end.

  (** The user does not lock a lock that the thread already has, and unlocks only locks it has. *)
  Definition step (s : st) (l : label) : option st :=
    match l with
    | Lock t k =>
        let y := th s t in
        match pc y with
        | Idle => if existsb (Nat.eqb k) (held y) then None
                  else Some (set_th s t (mkThr (Begin k 0) (held y) (tx y) (match tx y with None => 0 | _ => tries y end)))
        | _ => None
        end
    | TryLock t k =>
        let y := th s t in
        match pc y with Idle => if existsb (Nat.eqb k) (held y) then None else Some (set_th s t (with_pc y (TBegin k))) | _ => None end
    | Go t => go s t
    | Abort t c => match tx (th s t) with Some x => Some (set_th s t (rollback (th s t) x c)) | None => None end
    | Read t a =>
        match pc (th s t) with
        | Idle => let (v, y) := load s (th s t) (D a) in Some (record (set_th s t y) t (ERead t a v))
        | _ => None
        end
    | Write t a v =>
        match pc (th s t) with
        | Idle => Some (let s1 := record s t (EWrite t a v) in store s1 t (th s1 t) (D a) v)
        | _ => None
        end
    | Unlock t k =>
        match pc (th s t) with
        | Idle => if existsb (Nat.eqb k) (held (th s t)) then let (v, y) := load s (th s t) (W k) in Some (set_th s t (with_pc y (Unl k v))) else None
        | _ => None
        end
    end.
End Rtm.
(** All locks are free (line 29), the data is 0. *)
Definition init_state : st := mkSt (fun _ => 0) (fun _ => mkThr Idle [] None 0) false [].
