(** Model: waitfor_all() for CUDA and HIP streams (include/boost/fiber/cuda/waitfor.hpp; include/boost/fiber/hip/waitfor.hpp is the same text but for the names of the runtime).
    The runtime calls the callback of a stream at any time after it has been registered, on its own thread, with any status. A critical section under mtx_ is one step. Waiting: cv_.wait( lk, pred) is [Check]: it goes on if the predicate holds, and otherwise blocks until the condition variable is notified, without a window in between (that is C10). Streams and status codes are numbers; the status a failed registration returns is a choice of the label.
    A step that touches the rendezvous object after waitfor_all() has destroyed it, or an iterator whose node has been erased, sets [ub]. *)
From Coq Require Import List Arith Bool.
From Verif Require Import Base.
Import ListNotations.

(** The callback of a stream: not registered; registered; has left the critical section and will call notify_one(); over. *)
Inductive cbst := CNone | CPending | CNotify | CEnd.

(** ** single_stream_rendezvous: waitfor.hpp:42-74 *)
(** The caller: in the constructor, about to call wait(), blocked in cv_.wait(), returned with a tuple (119-123; the object is destroyed). *)
Inductive sphase := SCtor | SWait | SBlock | SRet (st status : nat).
Record sst := mkS {
  s_ph : sphase;
  s_cb : cbst;
  s_st : nat; s_status : nat; s_done : bool;   (* st_, status_, done_: 71-73 *)
  s_rep : list (nat * nat);                     (* ghost: what the runtime has reported, newest first *)
  s_ub : bool
}.
Inductive slabel :=
  | SAdd (err : option nat)     (* constructor, 44-52 *)
  | SCb (status : nat)          (* notify(), critical section, 55-59 *)
  | SNotify                     (* cv_.notify_one(), 60 *)
  | SCheck.                     (* wait(), 63-67 *)
(** status_{ cudaErrorUnknown } is 999 in CUDA; any number will do. *)
Definition s_init : sst := mkS SCtor CNone 0 999 false [] false.
Definition s_step (st : nat) (s : sst) (l : slabel) : option sst :=
  match l with
  | SAdd err =>
      match s_ph s with
      | SCtor => match err with
                 | None => Some (mkS SWait CPending (s_st s) (s_status s) (s_done s) (s_rep s) (s_ub s))
                 | Some e => Some (mkS SWait CNone st e true ((st, e) :: s_rep s) (s_ub s))
                 end
      | _ => None
      end
  | SCb status =>
      match s_cb s with
      | CPending => match s_ph s with
                    | SRet _ _ => Some (mkS (s_ph s) CNotify (s_st s) (s_status s) (s_done s) (s_rep s) true)
                    | _ => Some (mkS (s_ph s) CNotify st status true ((st, status) :: s_rep s) (s_ub s))
                    end
      | _ => None
      end
  | SNotify =>
      match s_cb s with
      | CNotify => match s_ph s with
                   | SRet _ _ => Some (mkS (s_ph s) CEnd (s_st s) (s_status s) (s_done s) (s_rep s) true)
                   | SBlock => Some (mkS SWait CEnd (s_st s) (s_status s) (s_done s) (s_rep s) (s_ub s))
                   | p => Some (mkS p CEnd (s_st s) (s_status s) (s_done s) (s_rep s) (s_ub s))
                   end
      | _ => None
      end
  | SCheck =>
      match s_ph s with
      | SWait => Some (mkS (if s_done s then SRet (s_st s) (s_status s) else SBlock) (s_cb s) (s_st s) (s_status s) (s_done s) (s_rep s) (s_ub s))
      | _ => None
      end
  end.

(** ** many_streams_rendezvous: waitfor.hpp:77-114 *)
(** The caller: in the constructor at the call of cudaStreamAddCallback for the stream the iterator points to (84); with its error code, before lock (85-86); at the increment of the iterator of the range-for (82), [None] while the iterator is still to be initialized with begin(); about to call wait(); blocked; returned. *)
Inductive mphase := MAdd (st : nat) | MFail (st e : nat) | MInc (st : option nat) | MWait | MBlock | MRet (r : list (nat * nat)).
Record mst := mkM {
  m_ph : mphase;
  m_stx : list nat;             (* stx_, in ascending order (std::set) *)
  m_res : list (nat * nat);     (* results_ *)
  m_cb : nat -> cbst;
  m_rep : list (nat * nat);     (* ghost: what the runtime has reported, newest first *)
  m_ub : bool
}.
Inductive mlabel :=
  | MNext                          (* begin() or ++it, and the comparison with end(): 82 *)
  | MReg (err : option nat)        (* 83-85 *)
  | MErr                           (* 86-88 *)
  | MCb (st status : nat)          (* notify(), critical section: 94-98 *)
  | MNotify (st : nat)             (* cv_.notify_one(): 99 *)
  | MCheck.                        (* wait(): 103-107 *)
(** std::set<>::insert *)
Fixpoint insert (x : nat) (l : list nat) : list nat :=
  match l with
  | [] => [x]
  | y :: r => if x <? y then x :: l else if x =? y then l else y :: insert x r
  end.
(** stx_{ l }: 79-80 *)
Definition set_of (l : list nat) : list nat := fold_right insert [] l.
(** stx_.erase( st): 87, 95 *)
Definition erase (x : nat) (l : list nat) : list nat := filter (fun y => negb (y =? x)) l.
(** The node after that of x *)
Definition succ_in (x : nat) (l : list nat) : option nat := find (fun y => x <? y) l.

Definition m_init (l : list nat) : mst := mkM (MInc None) (set_of l) [] (fun _ => CNone) [] false.
Definition m_step (s : mst) (l : mlabel) : option mst :=
  match l with
  | MNext =>
      match m_ph s with
      | MInc None => Some (mkM (match m_stx s with st :: _ => MAdd st | [] => MWait end) (m_stx s) (m_res s) (m_cb s) (m_rep s) (m_ub s))
      | MInc (Some st) =>
          if existsb (Nat.eqb st) (m_stx s)
          then Some (mkM (match succ_in st (m_stx s) with Some st' => MAdd st' | None => MWait end) (m_stx s) (m_res s) (m_cb s) (m_rep s) (m_ub s))
          else Some (mkM MWait (m_stx s) (m_res s) (m_cb s) (m_rep s) true)
      | _ => None
      end
  | MReg err =>
      match m_ph s with
      | MAdd st => match err with
                   | None => Some (mkM (MInc (Some st)) (m_stx s) (m_res s) (upd (m_cb s) st CPending) (m_rep s) (m_ub s))
                   | Some e => Some (mkM (MFail st e) (m_stx s) (m_res s) (m_cb s) (m_rep s) (m_ub s))
                   end
      | _ => None
      end
  | MErr =>
      match m_ph s with
      | MFail st e => Some (mkM (MInc (Some st)) (erase st (m_stx s)) (m_res s ++ [(st, e)]) (m_cb s) ((st, e) :: m_rep s) (m_ub s))
      | _ => None
      end
  | MCb st status =>
      match m_cb s st with
      | CPending =>
          match m_ph s with
          | MRet _ => Some (mkM (m_ph s) (m_stx s) (m_res s) (upd (m_cb s) st CEnd) (m_rep s) true)
          | p => let x := erase st (m_stx s) in
                 Some (mkM p x (m_res s ++ [(st, status)]) (upd (m_cb s) st (match x with [] => CNotify | _ => CEnd end)) ((st, status) :: m_rep s) (m_ub s))
          end
      | _ => None
      end
  | MNotify st =>
      match m_cb s st with
      | CNotify =>
          match m_ph s with
          | MRet _ => Some (mkM (m_ph s) (m_stx s) (m_res s) (upd (m_cb s) st CEnd) (m_rep s) true)
          | MBlock => Some (mkM MWait (m_stx s) (m_res s) (upd (m_cb s) st CEnd) (m_rep s) (m_ub s))
          | p => Some (mkM p (m_stx s) (m_res s) (upd (m_cb s) st CEnd) (m_rep s) (m_ub s))
          end
      | _ => None
      end
  | MCheck =>
      match m_ph s with
      | MWait => Some (mkM (match m_stx s with [] => MRet (m_res s) | _ => MBlock end) (m_stx s) (m_res s) (m_cb s) (m_rep s) (m_ub s))
      | _ => None
      end
  end.
