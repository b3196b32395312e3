(** Model: detail::context_spmc_queue (context_spmc_queue.hpp), the ready queue of work_stealing if BOOST_FIBERS_USE_SPMC_QUEUE is defined: one owner (push, pop) and any number of thieves (steal). Every access to top_, bottom_, array_ and to a cell is one step, except that accesses of the owner to what only the owner writes (bottom_, array_, the cells) are done together with its next access that others can see. Memory model: sequential consistency.
    Indices are machine words below W. The pushed elements are numbered in the order of the calls of push(); a cell holds the number of the element (ghost), [ictx] says which context it is. A failed BOOST_ASSERT stops the thread. Simplified: allocation does not fail and 2 * capacity_ does not overflow. *)
From Coq Require Import List Arith Bool.
From Verif Require Import Base.
Import ListNotations.

(** Owner. [PTop n b]: push() about to load top_ (line 123). [PArr n b t]: about to resize if full and to store array_ (124-132). [PCell n b]: about to write the cell (133). [PBot n b]: about to store bottom_ (135).
    [QBot b]: pop() about to store b = bottom_ - 1 (141). [QTop b]: about to load top_ (143) and, if not empty, the cell (147). [QCas b n]: about to compare-exchange top_ (151). [QEnd b o]: about to store bottom_ = b + 1 (157, 161) and to return o. *)
Inductive opc := OIdle | PTop (n b : nat) | PArr (n b t : nat) | PCell (n b : nat) | PBot (n b : nat) | QBot (b : nat) | QTop (b : nat) | QCas (b n : nat) | QEnd (b : nat) (o : option nat) | OCrashed.
(** Thief. [SBot t]: steal() has loaded top_ = t, about to load bottom_ (169). [SArr t]: about to load array_ (173). [SCell t a]: about to load the cell (174). [SPin t n]: about to access the context (177). [SCas t n]: about to compare-exchange top_ (180). *)
Inductive tpc := TIdle | SBot (t : nat) | SArr (t : nat) | SCell (t a : nat) | SPin (t n : nat) | SCas (t n : nat) | TCrashed.
(** Newest first. *)
Inductive event :=
  | EPush (n c : nat)              (* call of push( c): element n *)
  | EPushed (n : nat)              (* ... returns *)
  | ECallPop
  | EPop (o : option nat)          (* pop() returns *)
  | EAccess (u n : nat)            (* thief u accesses the context of element n *)
  | ESteal (u : nat) (o : option nat) (* steal() returns *)
  | EAssert.                       (* an assertion failed *)
Record st := mkSt {
  top : nat; bottom : nat; arr : nat;       (* top_, bottom_, array_ (arrays are numbered) *)
  cap : nat -> nat;                         (* capacity_ of each array *)
  cell : nat -> nat -> option nat;          (* storage_ of each array *)
  own : opc; thief : nat -> tpc;
  next : nat; ictx : nat -> nat;
  log : list event
}.
Inductive label := Push (c : nat) | Pop | Own | Steal (u : nat) | Go (u : nat).

Section Spmc.
Variable W : nat.
Variable pinned : nat -> bool.   (* context::is_context( type::pinned_context) *)
(** size_t arithmetic *)
Definition dec (b : nat) : nat := match b with O => W - 1 | S b' => b' end.
Definition inc (b : nat) : nat := if S b =? W then 0 else S b.
Definition diff (b t : nat) : nat := if t <=? b then b - t else W + b - t.

Definition with_own (s : st) (p : opc) (e : list event) : st := mkSt (top s) (bottom s) (arr s) (cap s) (cell s) p (thief s) (next s) (ictx s) (e ++ log s).
Definition with_thief (s : st) (u : nat) (p : tpc) (e : list event) : st := mkSt (top s) (bottom s) (arr s) (cap s) (cell s) (own s) (upd (thief s) u p) (next s) (ictx s) (e ++ log s).
(** array::resize(), lines 84-90: [k] elements from index [i] on. *)
Fixpoint copy (old new : nat -> option nat) (c : nat) (i k : nat) : nat -> option nat :=
  match k with O => new | S k' => copy old (upd new (i mod (2 * c)) (old (i mod c))) c (inc i) k' end.

(** push() 121-136, pop() 138-164 *)
Definition own_step (s : st) : option st :=
  match own s with
  | PTop n b => Some (with_own s (PArr n b (top s)) [])
  | PArr n b t =>
      let c := cap s (arr s) in
      if c - 1 <? diff b t
      then let a := S (arr s) in
           Some (mkSt (top s) (bottom s) a (upd (cap s) a (2 * c)) (upd (cell s) a (copy (cell s (arr s)) (fun _ => None) c t (diff b t))) (PCell n b) (thief s) (next s) (ictx s) (log s))
      else Some (with_own s (PCell n b) [])
  | PCell n b =>
      let a := arr s in
      Some (mkSt (top s) (bottom s) a (cap s) (upd (cell s) a (upd (cell s a) (b mod cap s a) (Some n))) (PBot n b) (thief s) (next s) (ictx s) (log s))
  | PBot n b => Some (mkSt (top s) (inc b) (arr s) (cap s) (cell s) OIdle (thief s) (next s) (ictx s) (EPushed n :: log s))
  | QBot b => Some (mkSt (top s) b (arr s) (cap s) (cell s) (QTop b) (thief s) (next s) (ictx s) (log s))
  | QTop b =>
      if top s <=? b then
        match cell s (arr s) (b mod cap s (arr s)) with
        | None => Some (with_own s OCrashed [EAssert])
        | Some n => if top s =? b then Some (with_own s (QCas b n) []) else Some (with_own s OIdle [EPop (Some n)])
        end
      else Some (with_own s (QEnd b None) [])
  | QCas b n =>
      if top s =? b
      then Some (mkSt (inc b) (bottom s) (arr s) (cap s) (cell s) (QEnd b (Some n)) (thief s) (next s) (ictx s) (log s))
      else Some (with_own s (QEnd b None) [])
  | QEnd b o => Some (mkSt (top s) (inc b) (arr s) (cap s) (cell s) OIdle (thief s) (next s) (ictx s) (EPop o :: log s))
  | OIdle | OCrashed => None
  end.
(** steal() 166-188 *)
Definition thief_step (s : st) (u : nat) : option st :=
  match thief s u with
  | SBot t => if t <? bottom s then Some (with_thief s u (SArr t) []) else Some (with_thief s u TIdle [ESteal u None])
  | SArr t => Some (with_thief s u (SCell t (arr s)) [])
  | SCell t a => match cell s a (t mod cap s a) with Some n => Some (with_thief s u (SPin t n) []) | None => Some (with_thief s u TCrashed [EAssert]) end
  | SPin t n => if pinned (ictx s n) then Some (with_thief s u TIdle [ESteal u None; EAccess u n]) else Some (with_thief s u (SCas t n) [EAccess u n])
  | SCas t n =>
      if top s =? t
      then Some (mkSt (inc t) (bottom s) (arr s) (cap s) (cell s) (own s) (upd (thief s) u TIdle) (next s) (ictx s) (ESteal u (Some n) :: log s))
      else Some (with_thief s u TIdle [ESteal u None])
  | TIdle | TCrashed => None
  end.
Definition step (s : st) (l : label) : option st :=
  match l with
  | Push c => match own s with
              | OIdle => Some (mkSt (top s) (bottom s) (arr s) (cap s) (cell s) (PTop (next s) (bottom s)) (thief s) (S (next s)) (upd (ictx s) (next s) c) (EPush (next s) c :: log s))
              | _ => None end
  | Pop => match own s with OIdle => Some (with_own s (QBot (dec (bottom s))) [ECallPop]) | _ => None end
  | Own => own_step s
  | Steal u => match thief s u with TIdle => Some (with_thief s u (SBot (top s)) []) | _ => None end
  | Go u => thief_step s u
  end.
End Spmc.
(** context_spmc_queue.hpp:93-103 *)
Definition init_state (capacity : nat) : st := mkSt 0 0 0 (fun _ => capacity) (fun _ _ => None) OIdle (fun _ => TIdle) 0 (fun _ => 0) [].
