(** Model: who refers to which shared state. Promises, packaged_tasks, futures and shared_futures as objects holding an
    intrusive_ptr to a shared state; any number of objects, shared states and fibers (future/promise.hpp, packaged_task.hpp,
    future.hpp, detail/shared_state.hpp, detail/task_object.hpp).

    Each member function is a short program of instructions on intrusive_ptrs, one atomic step each; the instructions of different
    fibers interleave. The operations of a shared state (set_value, wait, ...) are atomic here, with the notification as a separate
    access; SharedState.v shows what happens inside. Allocation, the copy of values and the move of functions do not throw. One type R
    and one signature. The time of wait_until is not modelled here (label LTimeout), see SharedState.v.

    Users must not use one object from two fibers at the same time, except for reading operations; this is a condition of the step that
    starts an operation ([allowed]). A function run by a packaged_task that itself uses these objects is modelled by another fiber
    doing so in the meantime. *)
From Coq Require Import List Arith Bool.
From Verif Require Import Base Kernel SharedState.
Import ListNotations.

Definition sid := nat.   (* a shared state *)

(** Where an intrusive_ptr may live: promise, packaged_task, future, shared_future objects of the user; and temporaries of a call: tmp of
    promise.hpp:72, packaged_task.hpp:90 (T0); tmp of packaged_task.hpp:128, future.hpp:147, and temporaries of intrusive_ptr's
    assignment (T1, T2). *)
Inductive loc := HP (n : nat) | HT (n : nat) | HF (n : nat) | HS (n : nat) | T0 (f : fid) | T1 (f : fid) | T2 (f : fid).
Definition loc_eqb (a b : loc) : bool :=
  match a, b with
  | HP x, HP y | HT x, HT y | HF x, HF y | HS x, HS y | T0 x, T0 y | T1 x, T1 y | T2 x, T2 y => Nat.eqb x y
  | _, _ => false
  end.
(** promise_base and packaged_task have a flag obtained_ and a destructor that calls owner_destroyed(). *)
Definition owner (l : loc) : bool := match l with HP _ | HT _ | T0 _ => true | _ => false end.

(** The non-null intrusive_ptrs. *)
Definition ptrs := list (loc * sid).
Fixpoint pget (p : ptrs) (l : loc) : option sid :=
  match p with [] => None | (l', i) :: p' => if loc_eqb l' l then Some i else pget p' l end.
Fixpoint prem (p : ptrs) (l : loc) : ptrs :=
  match p with [] => [] | (l', i) :: p' => if loc_eqb l' l then prem p' l else (l', i) :: prem p' l end.
Definition pset (p : ptrs) (l : loc) (v : option sid) : ptrs :=
  match v with Some i => (l, i) :: prem p l | None => prem p l end.
Definition pswap (p : ptrs) (a b : loc) : ptrs := let u := pget p a in let v := pget p b in pset (pset p a v) b u.
Definition updl {A} (m : loc -> A) (l : loc) (v : A) : loc -> A := fun x => if loc_eqb x l then v else m x.

Section Obj.
Context {V E : Type}.
Notation outcome := (outcome V E).

Inductive op :=
| New (l : loc)                (* HP: promise.hpp:37-53; HT: packaged_task.hpp:52-71 *)
| New0 (l : loc)               (* default constructors: packaged_task.hpp:38, future.hpp:32 *)
| MoveCtor (d s : loc)         (* promise.hpp:64-68, packaged_task.hpp:82-86, future.hpp:44-47, 130-132, 279-285 *)
| MoveAssign (d s : loc)       (* promise.hpp:70-76, packaged_task.hpp:88-94, future.hpp:56-62, 134-139, 294-304 *)
| CopyCtor (d s : loc)         (* future.hpp:40-42, 275-277 *)
| CopyAssign (d s : loc)       (* future.hpp:49-54, 287-292 *)
| Swap (a b : loc)             (* promise.hpp:89-92, packaged_task.hpp:96-99 *)
| Destroy (l : loc)            (* promise.hpp:55-59, packaged_task.hpp:73-77, future.hpp:38, 273 *)
| GetFuture (h d : loc)        (* promise.hpp:78-87, packaged_task.hpp:105-115; d: the future returned *)
| SetV (h : loc) (v : V)       (* promise.hpp:123-135 *)
| SetE (h : loc) (e : option E)(* promise.hpp:94-99 *)
| Invoke (h : loc)             (* packaged_task.hpp:117-122, task_object.hpp:56-74 *)
| Reset (h : loc)              (* packaged_task.hpp:124-132, task_object.hpp:76-89 *)
| Share (s d : loc)            (* future.hpp:446-453 *)
| GetF (l : loc)               (* HF: future.hpp:143-150; HS: 306-311 *)
| WaitF (l : loc)              (* future.hpp:75-80 *)
| WaitUntilF (l : loc)         (* future.hpp:82-96 *)
| GetExcF (l : loc)            (* future.hpp:68-73 *)
| Valid (l : loc).             (* future.hpp:64-66, packaged_task.hpp:101-103 *)

(** Normal return; promise_uninitialized / packaged_task_uninitialized / future_uninitialized; future_already_retrieved;
    promise_already_satisfied; a value; a rethrown exception; an exception_ptr; future_status::timeout; a bool; read of a
    storage without object. *)
Inductive fres := FOk | FUninit | FAlready | FSat | FVal (v : V) | FThrow (x : exn E) | FEPtr (x : option (exn E)) | FTimeout | FBool (b : bool) | FNoObj.

Inductive instr :=
| INew (l : loc)       (* allocate and construct a shared state, intrusive_ptr::reset(p) *)
| ICopy (d s : loc)    (* copy constructor of intrusive_ptr *)
| ISwap (a b : loc)    (* intrusive_ptr::swap *)
| IMoveO (d s : loc)   (* promise.hpp:64-68: obtained_ and the pointer move, s becomes empty *)
| ISwapO (a b : loc)   (* promise.hpp:90-91 *)
| IReset (h t : loc)   (* packaged_task.hpp:130-131: swap in the new state, obtained_ = false *)
| IDtor (l : loc)      (* promise.hpp:56-58, then the destructor of the pointer *)
| IDrop (l : loc)      (* destructor of intrusive_ptr: shared_state.hpp:148-149. Where it ends the life of a promise or task, obtained_ is
                          set to false, as it is in the next object there (promise.hpp:30, packaged_task.hpp:34) *)
| IFree (i : sid)      (* shared_state.hpp:150-152, the counter was 1 *)
| IObtain (h : loc)    (* promise.hpp:85 *)
| ISet (l : loc) (x : outcome)  (* shared_state.hpp:205-210, 116-119 up to the unlock *)
| INotify (l : loc)    (* shared_state.hpp:51 *)
| IRun (l : loc)       (* task_object.hpp:64 *)
| IWait (l : loc) (o : op)   (* shared_state.hpp:213-216, 121-129 *)
| IWaitT (l : loc).    (* shared_state.hpp:137-141 *)

Inductive event :=
| FCall (f : fid) (o : op) (i : option sid)   (* [i]: the shared state the object used refers to *)
| FRet (f : fid) (o : op) (r : fres)
| FNew (f : fid) (i : sid) | FObt (f : fid) (i : sid) | FStore (f : fid) (i : sid) (x : outcome) | FExec (f : fid) (i : sid) (x : outcome)
| FAbandon (f : fid) (i : sid)   (* reset() gives up [i] *)
| FFree (f : fid) (i : sid).

(** How an operation uses an object: exclusively; writing obtained_ only; reading. *)
Inductive mode := Excl | Obt | Read.
Definition conflict (a b : mode) : bool :=
  match a, b with Excl, _ | _, Excl | Obt, Obt => true | _, _ => false end.
Definition uses_of (o : op) : list (loc * mode) :=
  match o with
  | New l | New0 l | Destroy l | Reset l => [(l, Excl)]
  | MoveCtor d s | MoveAssign d s | Swap d s | Share s d => [(d, Excl); (s, Excl)]
  | CopyCtor d s | CopyAssign d s => [(d, Excl); (s, Read)]
  | GetFuture h d => [(h, Obt); (d, Excl)]
  | GetF l => [(l, match l with HF _ => Excl | _ => Read end)]
  | SetV l _ | SetE l _ | Invoke l | WaitF l | WaitUntilF l | GetExcF l | Valid l => [(l, Read)]
  end.
(** The object an operation constructs. *)
Definition born (o : op) : option loc :=
  match o with New l | New0 l | MoveCtor l _ | CopyCtor l _ | GetFuture _ l | Share _ l => Some l | _ => None end.

Definition same_class (a b : loc) : bool :=
  match a, b with HP _, HP _ | HT _, HT _ | HF _, HF _ | HS _, HS _ => true | _, _ => false end.
Definition is_fut (a : loc) : bool := match a with HF _ | HS _ => true | _ => false end.
Definition from (d s : loc) : bool := same_class d s || match d, s with HS _, HF _ => true | _, _ => false end.
(** Operations that the types admit. *)
Definition typed (o : op) : bool :=
  match o with
  | New l => match l with HP _ | HT _ => true | _ => false end
  | New0 l => match l with HT _ | HF _ | HS _ => true | _ => false end
  | MoveCtor d s => from d s && negb (loc_eqb d s)
  | MoveAssign d s => from d s
  | CopyCtor d s => match d, s with HS x, HS y => negb (Nat.eqb x y) | _, _ => false end
  | CopyAssign d s => match d, s with HS _, HS _ => true | _, _ => false end
  | Swap a b => same_class a b && owner a
  | Destroy l => match l with HP _ | HT _ | HF _ | HS _ => true | _ => false end
  | GetFuture h d => match h, d with HP _, HF _ | HT _, HF _ => true | _, _ => false end
  | SetV h _ | SetE h _ => match h with HP _ => true | _ => false end
  | Invoke h | Reset h => match h with HT _ => true | _ => false end
  | Share s d => match s, d with HF _, HS _ => true | _, _ => false end
  | GetF l | WaitF l | WaitUntilF l | GetExcF l => is_fut l
  | Valid l => is_fut l || match l with HT _ => true | _ => false end
  end.

Record frame := mkFrame { fop : op; fresult : fres; fprog : list instr }.
Record state := mkSt {
  ptr : ptrs;
  obt : loc -> bool;                (* obtained_ *)
  live : loc -> bool;               (* the object exists *)
  next : sid;                       (* shared states below were created *)
  cnt : sid -> nat;                 (* shared_state.hpp:39 use_count_ *)
  freed : sid -> bool;
  result : sid -> option outcome;   (* ready_, except_, storage_ *)
  frames : fid -> option frame;
  uses : list (fid * loc * mode);
  ub : bool;                        (* null pointer or freed memory was used *)
  log : list event }.

Definition init : state :=
  mkSt [] (fun _ => false) (fun _ => false) 0 (fun _ => 0) (fun _ => false) (fun _ => None) (fun _ => None) [] false [].

(** The programs. Result [FOk] unless an instruction changes it. Lines 71, 89 and 50, 57, 135, 288, 295: self-assignment does nothing. *)
Definition compile (s : state) (f : fid) (o : op) : fres * list instr :=
  let null l := match pget (ptr s) l with None => true | Some _ => false end in
  match o with
  | New l => (FOk, [INew l])
  | New0 l => (FOk, [])
  | MoveCtor d a => (FOk, if owner d then [IMoveO d a] else [ICopy d a; IDrop a])
  | MoveAssign d a =>
      (FOk, if loc_eqb d a then []
            else if owner d then [IMoveO (T0 f) a; ISwapO d (T0 f); IDtor (T0 f)]
            else [ICopy (T1 f) a; ISwap d (T1 f); IDrop (T1 f); IDrop a])
  | CopyCtor d a => (FOk, [ICopy d a])
  | CopyAssign d a => (FOk, if loc_eqb d a then [] else [ICopy (T1 f) a; ISwap d (T1 f); IDrop (T1 f)])
  | Swap a b => (FOk, [ISwapO a b])
  | Destroy l => (FOk, if owner l then [IDtor l] else [IDrop l])
  | GetFuture h d =>
      if obt s h then (FAlready, [])
      else if null h then (FUninit, [])
      else (FOk, IObtain h :: match h with HP _ => [ICopy d h] | _ => [ICopy (T1 f) h; ICopy d (T1 f); IDrop (T1 f)] end)
  | SetV h v => if null h then (FUninit, []) else (FOk, [ISet h (OVal v)])
  | SetE h e => if null h then (FUninit, []) else (FOk, [ISet h (OExc (option_map User e))])
  | Invoke h => if null h then (FUninit, []) else (FOk, [IRun h])
  | Reset h => if null h then (FUninit, []) else (FOk, [ICopy (T1 f) h; INew (T2 f); IReset h (T2 f); IDrop (T2 f); IDrop (T1 f)])
  | Share a d => if null a then (FUninit, []) else (FOk, [ICopy d a; IDrop a])
  | GetF l =>
      if null l then (FUninit, [])
      else match l with
           | HF _ => (FOk, [ISwap (T1 f) l; IWait (T1 f) o; IDrop (T1 f)])
           | _ => (FOk, [IWait l o])
           end
  | WaitF l | GetExcF l => if null l then (FUninit, []) else (FOk, [IWait l o])
  | WaitUntilF l => if null l then (FUninit, []) else (FOk, [IWaitT l])
  | Valid l => (FBool (negb (null l)), [])
  end.

(** The object whose state decides the outcome of the call, for the log. *)
Definition subject (o : op) : loc :=
  match o with
  | New l | New0 l | MoveCtor _ l | MoveAssign _ l | CopyCtor _ l | CopyAssign _ l | Swap l _ | Destroy l | GetFuture l _
  | SetV l _ | SetE l _ | Invoke l | Reset l | Share l _ | GetF l | WaitF l | WaitUntilF l | GetExcF l | Valid l => l
  end.

(** The user's obligations. *)
Definition allowed (s : state) (o : op) : bool :=
  typed o &&
  forallb (fun '(l, m) =>
    (match born o with Some b => if loc_eqb b l then negb (live s l) else live s l | None => live s l end) &&
    forallb (fun '(g, l', m') => negb (loc_eqb l l' && conflict m m')) (uses s)) (uses_of o).

Definition with_ptr (s : state) (p : ptrs) : state :=
  mkSt p (obt s) (live s) (next s) (cnt s) (freed s) (result s) (frames s) (uses s) (ub s) (log s).
Definition with_obt (s : state) (b : loc -> bool) : state :=
  mkSt (ptr s) b (live s) (next s) (cnt s) (freed s) (result s) (frames s) (uses s) (ub s) (log s).
Definition with_cnt (s : state) (c : sid -> nat) : state :=
  mkSt (ptr s) (obt s) (live s) (next s) c (freed s) (result s) (frames s) (uses s) (ub s) (log s).
Definition with_ub (s : state) (b : bool) : state :=
  mkSt (ptr s) (obt s) (live s) (next s) (cnt s) (freed s) (result s) (frames s) (uses s) b (log s).
Definition with_log (s : state) (e : event) : state :=
  mkSt (ptr s) (obt s) (live s) (next s) (cnt s) (freed s) (result s) (frames s) (uses s) (ub s) (e :: log s).
Definition with_frame (s : state) (f : fid) (fr : option frame) : state :=
  mkSt (ptr s) (obt s) (live s) (next s) (cnt s) (freed s) (result s) (upd (frames s) f fr) (uses s) (ub s) (log s).
(** Continue with program [p]; return [r]. *)
Definition cont (s : state) (f : fid) (o : op) (r : fres) (p : list instr) : state := with_frame s f (Some (mkFrame o r p)).
(** An access to shared state [i]. *)
Definition touch (s : state) (i : sid) : state := with_ub s (ub s || freed s i).
(** shared_state.hpp:47-52 after the test of ready_. *)
Definition store (s : state) (f : fid) (i : sid) (x : outcome) : state :=
  mkSt (ptr s) (obt s) (live s) (next s) (cnt s) (freed s) (upd (result s) i (Some x)) (frames s) (uses s) (ub s) (FStore f i x :: log s).

(** What the readers give: shared_state.hpp:180-187 (get), 72-76, 78-81. *)
Definition read_result (o : op) (x : outcome) : fres :=
  match o with
  | GetF _ => match x with OVal v => FVal v | OExc (Some e) => FThrow e | OExc None => FNoObj end
  | GetExcF _ => FEPtr match x with OVal _ => None | OExc e => e end
  | _ => FOk
  end.

(** [x]: outcome of the function for IRun. *)
Definition exec_instr (s : state) (f : fid) (o : op) (r : fres) (i : instr) (rest : list instr) (x : option outcome) : option state :=
  let go s := cont s f o r rest in
  match i with
  | INew l =>
      let n := next s in
      Some (go (mkSt (pset (ptr s) l (Some n)) (obt s) (live s) (S n) (upd (cnt s) n 1) (freed s) (result s) (frames s) (uses s) (ub s) (FNew f n :: log s)))
  | ICopy d a =>
      match pget (ptr s) a with
      | None => Some (go s)
      | Some j => Some (go (with_ptr (with_cnt (touch s j) (upd (cnt s) j (S (cnt s j)))) (pset (ptr s) d (Some j))))
      end
  | ISwap a b => Some (go (with_ptr s (pswap (ptr s) a b)))
  | IMoveO d a =>
      Some (go (with_obt (with_ptr s (pset (pset (ptr s) d (pget (ptr s) a)) a None)) (updl (updl (obt s) d (obt s a)) a false)))
  | ISwapO a b =>
      Some (go (with_obt (with_ptr s (pswap (ptr s) a b)) (updl (updl (obt s) a (obt s b)) b (obt s a))))
  | IReset h t =>
      let s' := match pget (ptr s) h with Some j => with_log s (FAbandon f j) | None => s end in
      Some (go (with_obt (with_ptr s' (pswap (ptr s) h t)) (updl (obt s) h false)))
  | IDtor l =>
      match pget (ptr s) l with
      | Some j =>
          if obt s l then
            match result s j with
            | None => Some (cont (store (touch s j) f j (OExc (Some Broken))) f o r (INotify l :: IDrop l :: rest))
            | Some _ => Some (cont (touch s j) f o r (IDrop l :: rest))
            end
          else Some (cont s f o r (IDrop l :: rest))
      | None => Some (cont s f o r (IDrop l :: rest))
      end
  | IDrop l =>
      match pget (ptr s) l with
      | None => Some (go s)
      | Some j =>
          let s' := with_obt (with_ptr (with_cnt (touch s j) (upd (cnt s) j (Nat.pred (cnt s j)))) (pset (ptr s) l None)) (updl (obt s) l false) in
          if Nat.eqb (cnt s j) 1 then Some (cont s' f o r (IFree j :: rest)) else Some (go s')
      end
  | IFree j =>
      Some (go (mkSt (ptr s) (obt s) (live s) (next s) (cnt s) (upd (freed s) j true) (result s) (frames s) (uses s) (ub s || freed s j) (FFree f j :: log s)))
  | IObtain h =>
      match pget (ptr s) h with
      | Some j => Some (go (with_obt (with_log s (FObt f j)) (updl (obt s) h true)))
      | None => Some (with_ub s true)
      end
  | ISet l y =>
      match pget (ptr s) l with
      | Some j =>
          match result s j with
          | None => Some (cont (store (touch s j) f j y) f o r (INotify l :: rest))
          | Some _ => Some (cont (touch s j) f o FSat rest)
          end
      | None => Some (with_ub s true)
      end
  | INotify l => match pget (ptr s) l with Some j => Some (go (touch s j)) | None => Some (with_ub s true) end
  | IRun l =>
      match pget (ptr s) l, x with
      | Some j, Some y => Some (cont (with_log (touch s j) (FExec f j y)) f o r (ISet l y :: rest))
      | None, _ => Some (with_ub s true)
      | _, None => None
      end
  | IWait l o' =>
      match pget (ptr s) l with
      | Some j => match result s j with Some y => Some (cont (touch s j) f o (read_result o' y) rest) | None => None end
      | None => Some (with_ub s true)
      end
  | IWaitT l =>
      match pget (ptr s) l with
      | Some j => match result s j with Some _ => Some (go (touch s j)) | None => None end
      | None => Some (with_ub s true)
      end
  end.

(** A function of a packaged_task returns a value or throws. *)
Inductive label := LCall (f : fid) (o : op) | LStep (f : fid) | LRun (f : fid) (x : V + E) | LTimeout (f : fid).
Definition fn_outcome (x : V + E) : outcome := match x with inl v => OVal v | inr e => OExc (Some (User e)) end.

Definition failed (r : fres) : bool := match r with FUninit | FAlready => true | _ => false end.
(** Which objects exist after the operation. *)
Definition lives (o : op) (r : fres) (lv : loc -> bool) : loc -> bool :=
  match o with
  | Destroy l => updl lv l false
  | _ => match born o with Some l => if failed r then lv else updl lv l true | None => lv end
  end.

Definition step (s : state) (lb : label) : option state :=
  match lb with
  | LCall f o =>
      match frames s f with
      | Some _ => None
      | None =>
          if allowed s o then
            let '(r, p) := compile s f o in
            Some (mkSt (ptr s) (obt s) (live s) (next s) (cnt s) (freed s) (result s) (upd (frames s) f (Some (mkFrame o r p)))
                       (map (fun '(l, m) => (f, l, m)) (uses_of o) ++ uses s) (ub s) (FCall f o (pget (ptr s) (subject o)) :: log s))
          else None
      end
  | LStep f =>
      match frames s f with
      | None => None
      | Some (mkFrame o r []) =>
          Some (mkSt (ptr s) (obt s) (lives o r (live s)) (next s) (cnt s) (freed s) (result s) (upd (frames s) f None)
                     (filter (fun '(g, _, _) => negb (Nat.eqb g f)) (uses s)) (ub s) (FRet f o r :: log s))
      | Some (mkFrame o r (i :: p)) => exec_instr s f o r i p None
      end
  | LRun f x =>
      match frames s f with
      | Some (mkFrame o r (IRun l :: p)) => exec_instr s f o r (IRun l) p (Some (fn_outcome x))
      | _ => None
      end
  | LTimeout f =>
      match frames s f with
      | Some (mkFrame o r (IWaitT l :: p)) =>
          match pget (ptr s) l with
          | Some j => match result s j with None => Some (cont (touch s j) f o FTimeout p) | Some _ => None end
          | None => Some (with_ub s true)
          end
      | _ => None
      end
  end.
End Obj.
Arguments op : clear implicits. Arguments fres : clear implicits. Arguments instr : clear implicits. Arguments event : clear implicits.
Arguments frame : clear implicits. Arguments state : clear implicits. Arguments label : clear implicits.
