(** Specification vocabulary for promises, tasks and futures, read off the log (newest event first). *)
From Coq Require Import List Arith Bool.
From Verif Require Import Base Kernel SharedState FutureObj.
Import ListNotations.

(** Number of objects (and temporaries) that refer to [i]. *)
Definition refs (p : ptrs) (i : sid) : nat := length (filter (fun x => Nat.eqb (snd x) i) p).

Section Spec.
Context {V E : Type}.
Notation event := (event V E).
Notation op := (op V E).
Notation fres := (fres V E).

(** The call of [f] that has not returned yet, with the shared state its subject referred to. *)
Fixpoint pend (h : list event) (f : fid) : option (op * option sid) :=
  match h with
  | [] => None
  | FCall g o i :: h' => if Nat.eqb g f then Some (o, i) else pend h' f
  | FRet g _ _ :: h' => if Nat.eqb g f then None else pend h' f
  | _ :: h' => pend h' f
  end.
(** The history before the last call of [f], and what has happened since. *)
Fixpoint before (h : list event) (f : fid) : list event :=
  match h with
  | [] => []
  | FCall g _ _ :: h' => if Nat.eqb g f then h' else before h' f
  | _ :: h' => before h' f
  end.
Fixpoint since (h : list event) (f : fid) : list event :=
  match h with
  | [] => []
  | FCall g o i :: h' => if Nat.eqb g f then [] else FCall g o i :: since h' f
  | e :: h' => e :: since h' f
  end.
(** The outcome stored in [i] (the first one). *)
Fixpoint stored (h : list event) (i : sid) : option (outcome V E) :=
  match h with
  | [] => None
  | FStore _ j x :: h' => match stored h' i with Some y => Some y | None => if Nat.eqb j i then Some x else None end
  | _ :: h' => stored h' i
  end.
(** get_future() has succeeded for [i]; reset() has given up [i]; [i] was freed; [i] was created. *)
Definition obtained (h : list event) (i : sid) : Prop := exists f, In (FObt f i) h.
Definition abandoned (h : list event) (i : sid) : Prop := exists f, In (FAbandon f i) h.
Definition is_freed (h : list event) (i : sid) : Prop := exists f, In (FFree f i) h.
Definition created (h : list event) (i : sid) : Prop := exists f, In (FNew f i) h.
(** The executions of functions of tasks by [f]. *)
Fixpoint execs (h : list event) (f : fid) : list (sid * outcome V E) :=
  match h with
  | [] => []
  | FExec g i x :: h' => if Nat.eqb g f then (i, x) :: execs h' f else execs h' f
  | _ :: h' => execs h' f
  end.
(** The shared state created last by [f]. *)
Fixpoint last_new (h : list event) (f : fid) : option sid :=
  match h with
  | [] => None
  | FNew g i :: h' => if Nat.eqb g f then Some i else last_new h' f
  | _ :: h' => last_new h' f
  end.

(** Value semantics: how a returned operation changes which state the objects refer to; [n]: the state it created. *)
Definition effect (o : op) (r : fres) (n : option sid) (m : loc -> option sid) : loc -> option sid :=
  if failed r then m
  else match o with
  | New l | Reset l => updl m l n
  | New0 l | Destroy l => updl m l None
  | MoveCtor d s | Share s d => updl (updl m d (m s)) s None
  | MoveAssign d s => if loc_eqb d s then m else updl (updl m d (m s)) s None
  | CopyCtor d s | CopyAssign d s | GetFuture s d => updl m d (m s)
  | Swap a b => updl (updl m a (m b)) b (m a)
  | GetF l => match l with HF _ => updl m l None | _ => m end
  | _ => m
  end.
Fixpoint refers (h : list event) : loc -> option sid :=
  match h with
  | [] => fun _ => None
  | FRet f o r :: h' => effect o r (last_new h' f) (refers h')
  | _ :: h' => refers h'
  end.

(** The outcomes a call may store in the state [i] of its subject. *)
Definition may_store (h : list event) (f : fid) (i : sid) (x : outcome V E) : Prop :=
  exists o j, pend h f = Some (o, j) /\
  match o with
  | SetV _ v => j = Some i /\ x = OVal v
  | SetE _ e => j = Some i /\ x = OExc (option_map User e)
  | Invoke _ => j = Some i /\ execs (since h f) f = [(i, x)]
  | Destroy l => j = Some i /\ owner l = true /\ obtained h i /\ x = OExc (Some Broken)
  | MoveAssign d s => d <> s /\ refers (before h f) d = Some i /\ owner d = true /\ obtained h i /\ x = OExc (Some Broken)
  | _ => False
  end.

(** A setter with outcome [x] on state [i]: stores, or finds the state satisfied and stores nothing. *)
Definition set_ok (h : list event) (f : fid) (i : sid) (x : outcome V E) (r : fres) : Prop :=
  (r = FOk /\ In (FStore f i x) (since h f)) \/
  (r = FSat /\ stored h i <> None /\ forall y, ~ In (FStore f i y) (since h f)).

(** When a promise or task that referred to [i] is gone and a future had been obtained, [i] is satisfied. *)
Definition left_ok (h : list event) (f : fid) (i : option sid) : Prop :=
  forall j, i = Some j -> obtained (before h f) j -> stored h j <> None.

Definition ret_ok (h : list event) (f : fid) (o : op) (i : option sid) (r : fres) : Prop :=
  match o with
  | New _ | New0 _ | MoveCtor _ _ | CopyCtor _ _ | CopyAssign _ _ | Swap _ _ => r = FOk
  | Destroy l => r = FOk /\ (owner l = true -> left_ok h f i)
  | MoveAssign d a => r = FOk /\ (owner d = true -> d <> a -> left_ok h f (refers (before h f) d))
  | Valid _ => r = FBool match i with Some _ => true | None => false end
  | GetFuture _ _ =>
      match i with
      | None => r = FUninit
      | Some j => (r = FAlready /\ obtained (before h f) j) \/ (r = FOk /\ ~ obtained (before h f) j /\ In (FObt f j) (since h f))
      end
  | SetV _ v => match i with None => r = FUninit | Some j => set_ok h f j (OVal v) r end
  | SetE _ e => match i with None => r = FUninit | Some j => set_ok h f j (OExc (option_map User e)) r end
  | Invoke _ => match i with None => r = FUninit | Some j => exists x, execs (since h f) f = [(j, x)] /\ set_ok h f j x r end
  | Reset _ => match i with None => r = FUninit | Some j => r = FOk /\ In (FAbandon f j) (since h f) end
  | Share _ _ => match i with None => r = FUninit | Some _ => r = FOk end
  | GetF _ | WaitF _ | GetExcF _ =>
      match i with None => r = FUninit | Some j => exists x, stored h j = Some x /\ r = read_result o x end
  | WaitUntilF _ =>
      match i with
      | None => r = FUninit
      | Some j => (r = FOk /\ stored h j <> None) \/ (r = FTimeout /\ stored (before h f) j = None)
      end
  end.

Fixpoint fobj_ok (h : list event) : Prop :=
  match h with
  | [] => True
  | e :: h' =>
      match e with
      | FCall f o i => pend h' f = None /\ i = refers h' (subject o)
      | FRet f o r => exists i, pend h' f = Some (o, i) /\ ret_ok h' f o i r
      | FNew f i => ~ created h' i /\ exists o j, pend h' f = Some (o, j) /\ match o with New _ | Reset _ => True | _ => False end
      | FObt f i => ~ obtained h' i /\ exists h d, pend h' f = Some (GetFuture h d, Some i)
      | FStore f i x => stored h' i = None /\ may_store h' f i x
      | FExec f i x => exists h, pend h' f = Some (Invoke h, Some i)
      | FAbandon f i => exists h, pend h' f = Some (Reset h, Some i)
      | FFree f i => created h' i /\ ~ is_freed h' i
      end /\ fobj_ok h'
  end.
End Spec.
