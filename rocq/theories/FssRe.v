(** Model: fiber-local storage of one fiber whose cleanup functions use fiber-local storage themselves or throw (include/boost/fiber/fss.hpp, src/context.cpp:264-280 and 342-372).
    Sequential: the storage of a fiber is touched by that fiber only. Calls nest, so each call of a cleanup function runs its body; [fuel] bounds the depth of nesting and the number of rounds of the loop in terminate(), and running out of it is the outcome [Out].
    Simplified: all fiber_specific_ptr objects outlive the fiber (the destructor is in Fss.v), so a cleanup function is named by its pointer object, and the pointer object by its address. The order of addresses is that of the natural numbers. *)
From Coq Require Import List Arith Bool.
Import ListNotations.

(** Element of the std::map of context.hpp:136. [n_id] is the identity of the node (iterators refer to it), [n_vp] the stored pointer (None = nullptr). *)
Record node := mkNode { n_id : nat; n_key : nat; n_vp : option nat }.

(** Calls that a fiber makes; [OThrow] throws an exception. *)
Inductive op := OGet (k : nat) | OReset (k : nat) (t : option nat) | ORelease (k : nat) | OThrow.

Inductive event :=
  | EGet (k : nat) (r : option nat)
  | EReset (k : nat) (c t : option nat)     (* reset( t) has returned; c is what was stored before *)
  | ERelease (k : nat) (r : option nat)
  | ECleanup (k : nat) (v : option nat)     (* the cleanup function of pointer k is called *)
  | EExit.                                  (* terminate() has cleared the storage *)

Record st := mkSt { nodes : list node; next_id : nat; log : list event }.
Definition init_state : st := mkSt [] 0 [].

(** Outcome of a piece of code. [UB]: an iterator to an erased element is used. [Thrown]: an exception leaves it. [Abort]: std::terminate(). *)
Inductive res := Done (s : st) | Thrown (s : st) | UB (s : st) | Abort (s : st) | Out.
Definition bind (r : res) (f : st -> res) : res := match r with Done s => f s | _ => r end.

Definition find (k : nat) (m : list node) : option node := List.find (fun x => n_key x =? k) m.
Definition alive (i : nat) (m : list node) : bool := existsb (fun x => n_id x =? i) m.
Definition assign (i : nat) (v : option nat) (m : list node) : list node :=
  map (fun x => if n_id x =? i then mkNode (n_id x) (n_key x) v else x) m.
Definition erase (i : nat) (m : list node) : list node := filter (fun x => negb (n_id x =? i)) m.
Definition note (e : event) (s : st) : st := mkSt (nodes s) (next_id s) (e :: log s).
Definition with_nodes (m : list node) (s : st) : st := mkSt m (next_id s) (log s).
Definition same (a b : option nat) : bool :=
  match a, b with Some x, Some y => x =? y | None, None => true | _, _ => false end.

(** The element with the least key that satisfies p: iteration over std::map goes by key. *)
Fixpoint least (p : nat -> bool) (m : list node) : option node :=
  match m with
  | [] => None
  | x :: m' =>
      match least p m' with
      | None => if p (n_key x) then Some x else None
      | Some y => if p (n_key x) && (n_key x <? n_key y) then Some x else Some y
      end
  end.

Section Code.
Variable body : nat -> option nat -> list op.  (* what the cleanup function of a pointer object does when it is called with a pointer *)

(** context.cpp:342-347 *)
Definition get_fss_data (s : st) (k : nat) : option nat := match find k (nodes s) with Some x => n_vp x | None => None end.
(** context.cpp:349-372; cl = do_cleanup (context.hpp:130-132). The iterator i is used again after the cleanup function has been called. *)
Definition set_fss_data (cl : nat -> option nat -> st -> res) (k : nat) (data : option nat) (cleanup_existing : bool) (s : st) : res :=
  match find k (nodes s) with
  | Some i =>
      bind (if cleanup_existing then cl k (n_vp i) s else Done s)
        (fun s1 => if alive (n_id i) (nodes s1)
                   then Done (with_nodes (match data with Some _ => assign (n_id i) data (nodes s1) | None => erase (n_id i) (nodes s1) end) s1)
                   else UB s1)
  | None => Done (mkSt (mkNode (next_id s) k data :: nodes s) (S (next_id s)) (log s))
  end.
(** fss.hpp:71-75, 85-90, 92-98 *)
Definition do_op (cl : nat -> option nat -> st -> res) (o : op) (s : st) : res :=
  match o with
  | OGet k => Done (note (EGet k (get_fss_data s k)) s)
  | ORelease k => bind (set_fss_data cl k None false s) (fun s1 => Done (note (ERelease k (get_fss_data s k)) s1))
  | OReset k t =>
      let c := get_fss_data s k in
      if same c t then Done (note (EReset k c t) s)
      else bind (set_fss_data cl k t true s) (fun s1 => Done (note (EReset k c t) s1))
  | OThrow => Thrown s
  end.
Fixpoint run (cl : nat -> option nat -> st -> res) (os : list op) (s : st) : res :=
  match os with [] => Done s | o :: os' => bind (do_op cl o s) (run cl os') end.
(** fss.hpp:28-46: the cleanup function of the pointer object at k is called with vp. *)
Fixpoint cleanup (fuel : nat) (k : nat) (vp : option nat) (s : st) : res :=
  match fuel with
  | 0 => Out
  | S n => run (cleanup n) (body k vp) (note (ECleanup k vp) s)
  end.
(** context.cpp:274-276: the loop at element nd; the iterator is advanced after the cleanup function has been called. *)
Fixpoint loop (cl : nat -> option nat -> st -> res) (fuel : nat) (nd : node) (s : st) : res :=
  match fuel with
  | 0 => Out
  | S n =>
      bind (cl (n_key nd) (n_vp nd) s)
        (fun s1 => if alive (n_id nd) (nodes s1)
                   then match least (Nat.ltb (n_key nd)) (nodes s1) with Some nd' => loop cl n nd' s1 | None => Done s1 end
                   else UB s1)
  end.
(** context.cpp:264-280 is noexcept. *)
Definition terminate (fuel : nat) (s : st) : res :=
  match bind (match least (fun _ => true) (nodes s) with Some nd => loop (cleanup fuel) fuel nd s | None => Done s end)
             (fun s1 => Done (note EExit (with_nodes [] s1))) with
  | Thrown s1 => Abort s1
  | r => r
  end.
(** A fiber that makes these calls one after the other, catching exceptions (context.hpp:421-451 runs the function of the fiber and then terminate()). *)
Fixpoint calls (fuel : nat) (os : list op) (s : st) : res :=
  match os with
  | [] => Done s
  | o :: os' => match do_op (cleanup fuel) o s with Done s1 | Thrown s1 => calls fuel os' s1 | r => r end
  end.
Definition fiber (fuel : nat) (os : list op) : res := bind (calls fuel os init_state) (terminate fuel).
End Code.
