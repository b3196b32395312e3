(** Model: fiber_specific_ptr (include/boost/fiber/fss.hpp, src/context.cpp). The data of a fiber is only touched by that fiber, so each call is one step.
    Simplified: cleanup functions do not call back into the same storage and do not throw; the map is keyed by the address of the pointer object as in the code, but its iteration order (which the documentation leaves unspecified) is not that of std::map. Not modelled: the reference count of the cleanup function object. *)
From Coq Require Import List Arith Bool.
From Verif Require Import Base.
Import ListNotations.

Section Fss.
Variable is_main : nat -> bool.  (* fibers that are the main fiber of a thread *)

(** context.hpp:118-134: pointer to the object (None = nullptr) and cleanup function, named by the fiber_specific_ptr object it belongs to. *)
Definition fss_data := (option nat * nat)%type.
(** context.hpp:136 *)
Definition fmap := list (nat * fss_data).
Fixpoint find (k : nat) (m : fmap) : option fss_data :=
  match m with [] => None | (k', e) :: m' => if k =? k' then Some e else find k m' end.
Definition erase (k : nat) (m : fmap) : fmap := filter (fun x => negb (k =? fst x)) m.
Definition put (k : nat) (e : fss_data) (m : fmap) : fmap := (k, e) :: erase k m.

(** Events, newest first. p names a pointer object, not its address. *)
Inductive event :=
  | ENew (p : nat)
  | EReset (f p : nat) (v : option nat)
  | ERelease (f p : nat) (r : option nat)
  | EGet (f p : nat) (r : option nat)
  | EDelete (f p : nat)
  | EExit (f : nat)                          (* the function of a fiber has returned *)
  | EMainEnd (f : nat)                       (* the thread of a main fiber ends *)
  | ECleanup (f p : nat) (o : option nat).   (* the cleanup function of p is called by fiber f *)

Record st := mkSt {
  ptr_at : nat -> option nat;   (* the pointer object that lives at an address *)
  fresh : nat;
  fss : nat -> fmap;            (* context.hpp:155 *)
  gone : nat -> bool;           (* the fiber has ended *)
  log : list event
}.
Definition init_state : st := mkSt (fun _ => None) 0 (fun _ => []) (fun _ => false) [].

(** context.cpp:342-347 *)
Definition get_fss_data (m : fmap) (k : nat) : option nat := match find k m with Some (vp, _) => vp | None => None end.
(** context.cpp:349-372; second component: calls of cleanup functions. *)
Definition set_fss_data (f : nat) (m : fmap) (k p : nat) (data : option nat) (cleanup_existing : bool) : fmap * list event :=
  match find k m with
  | Some (vp, q) => (match data with Some _ => put k (data, p) m | None => erase k m end, if cleanup_existing then [ECleanup f q vp] else [])
  | None => (put k (data, p) m, [])
  end.
Definition update (s : st) (f : nat) (r : fmap * list event) (e : event) : st :=
  mkSt (ptr_at s) (fresh s) (upd (fss s) f (fst r)) (gone s) (e :: snd r ++ log s).
Definition same (a b : option nat) : bool := match a, b with Some x, Some y => x =? y | None, None => true | _, _ => false end.
(** fss.hpp:92-98 *)
Definition reset (s : st) (f k p : nat) (t : option nat) : st :=
  let c := get_fss_data (fss s f) k in
  update s f (if same c t then (fss s f, []) else set_fss_data f (fss s f) k p t true) (EReset f p t).
(** fss.hpp:85-90 *)
Definition release (s : st) (f k p : nat) : st :=
  update s f (set_fss_data f (fss s f) k p None false) (ERelease f p (get_fss_data (fss s f) k)).
(** fss.hpp:71-75 *)
Definition get (s : st) (f k p : nat) : st := update s f (fss s f, []) (EGet f p (get_fss_data (fss s f) k)).
(** fss.hpp:60-66; the active context is not null. *)
Definition delete (s : st) (f k p : nat) : st :=
  let s1 := update s f (set_fss_data f (fss s f) k p None true) (EDelete f p) in
  mkSt (upd (ptr_at s1) k None) (fresh s1) (fss s1) (gone s1) (log s1).
(** context.cpp:274-276, in reverse since the newest event comes first. *)
Definition cleanups (f : nat) (m : fmap) : list event := rev (map (fun x => ECleanup f (snd (snd x)) (fst (snd x))) m).
(** context.cpp:264-280 for worker fibers. A main fiber never calls terminate(); ~context (context.cpp:159-170) does not clean up. *)
Definition exit (s : st) (f : nat) : st :=
  if is_main f
  then mkSt (ptr_at s) (fresh s) (fss s) (upd (gone s) f true) (EMainEnd f :: log s)
  else mkSt (ptr_at s) (fresh s) (upd (fss s) f []) (upd (gone s) f true) (EExit f :: cleanups f (fss s f) ++ log s).

Inductive label :=
  | New (k : nat)                          (* a pointer object is constructed at a free address; fss.hpp:52-58 *)
  | Reset (f k : nat) (t : option nat) | Release (f k : nat) | Get (f k : nat) | Delete (f k : nat) | Exit (f : nat).
(** A fiber that has ended makes no calls; calls are made on pointer objects that exist. *)
Definition on (s : st) (f k : nat) (g : nat -> st) : option st :=
  if gone s f then None else match ptr_at s k with Some p => Some (g p) | None => None end.
Definition step (s : st) (l : label) : option st :=
  match l with
  | New k => match ptr_at s k with
             | Some _ => None
             | None => Some (mkSt (upd (ptr_at s) k (Some (fresh s))) (S (fresh s)) (fss s) (gone s) (ENew (fresh s) :: log s))
             end
  | Reset f k t => on s f k (fun p => reset s f k p t)
  | Release f k => on s f k (fun p => release s f k p)
  | Get f k => on s f k (fun p => get s f k p)
  | Delete f k => on s f k (fun p => delete s f k p)
  | Exit f => if gone s f then None else Some (exit s f)
  end.
End Fss.
