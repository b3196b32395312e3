(** Model: detail::context_spmc_queue (context_spmc_queue.hpp) with the memory orders written in the code: one owner (push, pop), any number of thieves (steal). Spmc.v is the same code under sequential consistency, with machine words.
    Memory: every location has a history of stores, a load may return a stale one. The stores of the owner are numbered by its clock [now]; what a thief knows by happens-before of the owner is a prefix of the owner's stores, given by a number ([to_ u]). A load of a location written by the owner returns any store that is not hidden, i.e. no later store of that location is in the prefix the thief knows ([visible]).
    A store that follows a release or seq_cst fence carries the clock at that fence ([relp]); an acquire load that returns it adds this to the prefix of the thief. memory_order_consume is treated as acquire, as compilers do.
    top_ is written by compare_exchange only: its i-th value is i, message i carries the prefix [mtop i]. A compare_exchange succeeds iff it finds the last value. seq_cst fences: all of them are totally ordered and exchange what they know through [sco] (prefix of the owner) and [sct] (value of top_).
    The orders of the compare_exchange operations are used as acquire and release only; knowledge about top_ carried by messages, knowledge of a thief from coherence alone (of a load that did not synchronize) and from its relaxed loads by a later fence are left out. All this only adds behaviours. Not covered, as in other operational models: loads that return stores of the future (load buffering).
    Simplified: indices do not wrap around (Spmc.v has that); accesses of the owner to what only the owner writes are done together with the next access that others can see. *)
From Coq Require Import List Arith Bool.
From Verif Require Import Base.
Import ListNotations.

(** Owner. [PTop n b]: push() about to load top_ (line 123). [PArr n b t]: about to resize if full (124-132). [PCell n b]: about to write the cell (133). [PFence n b]: 134. [PBot n b]: 135.
    [QBot b]: pop() about to store b = bottom_ - 1 (141). [QFence b]: 142. [QTop b]: about to load top_ (143) and, if not empty, the cell (147). [QCas b n]: 151. [QEnd b]: about to store bottom_ = b + 1 (157, 161) and to return. *)
Inductive opc := OIdle | PTop (n b : nat) | PArr (n b t : nat) | PCell (n b : nat) | PFence (n b : nat) | PBot (n b : nat)
  | QBot (b : nat) | QFence (b : nat) | QTop (b : nat) | QCas (b n : nat) | QEnd (b : nat) | OCrashed.
(** Thief. [SFence t]: has loaded top_ = t (167), about to execute the fence (168). [SBot t]: 169. [SArr t]: 173. [SCell t a]: about to access the array a (174). [SPin t n]: about to access the context (177). [SCas t n]: 180. *)
Inductive tpc := TIdle | SFence (t : nat) | SBot (t : nat) | SArr (t : nat) | SCell (t a : nat) | SPin (t n : nat) | SCas (t n : nat) | TCrashed.
(** Newest first. *)
Inductive event :=
  | EPush (n c : nat)                  (* call of push( c): element n *)
  | EPushed (n : nat)                  (* ... returns *)
  | EPop (o : option nat)              (* pop() has found out what it returns *)
  | EGrow                              (* resize() *)
  | EArray (u a : nat) (hb : bool)     (* thief u accesses array a; hb: the construction of the array happens before *)
  | EAccess (u n : nat) (hb : bool)    (* thief u accesses the context of element n; hb: push() of it happens before *)
  | ESteal (u : nat) (o : option (nat * bool)) (* steal() returns; as above *)
  | EAssert.                           (* an assertion failed *)
(** A history, newest first: clock of the store and the value. *)
Definition hist (A : Type) := list (nat * A).
Record st := mkSt {
  top : nat; mtop : nat -> nat;             (* top_: last value; prefix attached to each value *)
  bots : hist (nat * nat);                  (* bottom_: value, clock of the last fence before the store *)
  arrs : hist (nat * nat);                  (* array_: number of the array, clock of the last fence *)
  cap : nat -> nat;                         (* capacity_ of each array *)
  cells : nat -> nat -> hist (option nat);  (* storage_ of each array *)
  created : nat -> nat;                     (* clock of the construction of each array *)
  now : nat; relp : nat; tv : nat;          (* owner: clock, clock of its last fence, the value of top_ it knows *)
  sco : nat; sct : nat;                     (* seq_cst fences *)
  own : opc; thief : nat -> tpc; to_ : nat -> nat;
  next : nat; ictx : nat -> nat;            (* elements pushed, their contexts *)
  gidx : nat -> nat; spos : nat -> nat; ppos : nat -> nat; (* ghost: element last written for an index, clock of that store; clock of the call of push() for an element *)
  log : list event
}.
(** Own k, Go u k: k chooses among the values that a load may return. Steal u t: steal() loads t from top_. *)
Inductive label := Push (c : nat) | Pop | Own (k : nat) | Steal (u t : nat) | Go (u k : nat).

Section Hist.
Context {A : Type}.
(** The stores that a thread which knows the prefix o may read. *)
Fixpoint visible (o : nat) (l : hist A) : hist A :=
  match l with [] => [] | e :: l' => if fst e <? o then [e] else e :: visible o l' end.
End Hist.

Section SpmcWeak.
Variable pinned : nat -> bool.   (* context::is_context( type::pinned_context) *)

Definition bottom (s : st) : nat := match bots s with (_, (v, _)) :: _ => v | [] => 0 end.
Definition array (s : st) : nat := match arrs s with (_, (a, _)) :: _ => a | [] => 0 end.
(** array::resize(), lines 84-90: [k] elements from index [i] on are copied into new cells; every cell has been initialized with nullptr (lines 49-55). *)
Fixpoint copy (old : nat -> hist (option nat)) (new : nat -> hist (option nat)) (c p i k : nat) : nat -> hist (option nat) :=
  match k with
  | O => new
  | S k' => copy old (upd new (i mod (2 * c)) ((p, match old (i mod c) with (_, v) :: _ => v | [] => None end) :: new (i mod (2 * c)))) c p (S i) k'
  end.

Definition own_to (s : st) (p : opc) (x : nat) (e : list event) : st :=
  mkSt (top s) (mtop s) (bots s) (arrs s) (cap s) (cells s) (created s) (now s) (relp s) x (sco s) (sct s) p (thief s) (to_ s) (next s) (ictx s) (gidx s) (spos s) (ppos s) (e ++ log s).
(** A store to bottom_. *)
Definition store_bottom (s : st) (v : nat) (p : opc) (e : list event) : st :=
  mkSt (top s) (mtop s) ((now s, (v, relp s)) :: bots s) (arrs s) (cap s) (cells s) (created s) (S (now s)) (relp s) (tv s) (sco s) (sct s) p (thief s) (to_ s) (next s) (ictx s) (gidx s) (spos s) (ppos s) (e ++ log s).
(** The values that the owner may load from top_. *)
Definition may_load (s : st) (k : nat) : bool := (tv s <=? k) && (k <=? top s).

(** push() 121-136, pop() 138-164 *)
Definition own_step (s : st) (k : nat) : option st :=
  match own s with
  | PTop n b => if may_load s k then Some (own_to s (PArr n b k) k []) else None
  | PArr n b t =>
      let a := array s in let c := cap s a in
      if c - 1 <? b - t
      then let a' := S a in let p := now s in
           Some (mkSt (top s) (mtop s) (bots s) ((p, (a', relp s)) :: arrs s) (upd (cap s) a' (2 * c))
                   (upd (cells s) a' (copy (cells s a) (fun _ => [(p, None)]) c p t (b - t))) (upd (created s) a' p)
                   (S p) (relp s) (tv s) (sco s) (sct s) (PCell n b) (thief s) (to_ s) (next s) (ictx s) (gidx s) (spos s) (ppos s) (EGrow :: log s))
      else Some (own_to s (PCell n b) (tv s) [])
  | PCell n b =>
      let a := array s in let p := now s in let i := b mod cap s a in
      Some (mkSt (top s) (mtop s) (bots s) (arrs s) (cap s) (upd (cells s) a (upd (cells s a) i ((p, Some n) :: cells s a i))) (created s)
              (S p) (relp s) (tv s) (sco s) (sct s) (PFence n b) (thief s) (to_ s) (next s) (ictx s) (upd (gidx s) b n) (upd (spos s) b p) (ppos s) (log s))
  | PFence n b => (* release fence *)
      Some (mkSt (top s) (mtop s) (bots s) (arrs s) (cap s) (cells s) (created s) (now s) (now s) (tv s) (sco s) (sct s) (PBot n b) (thief s) (to_ s) (next s) (ictx s) (gidx s) (spos s) (ppos s) (log s))
  | PBot n b => Some (store_bottom s (S b) OIdle [EPushed n])
  | QBot b => Some (store_bottom s b (QFence b) [])
  | QFence b => (* seq_cst fence *)
      let x := Nat.max (tv s) (sct s) in
      Some (mkSt (top s) (mtop s) (bots s) (arrs s) (cap s) (cells s) (created s) (now s) (now s) x (now s) x (QTop b) (thief s) (to_ s) (next s) (ictx s) (gidx s) (spos s) (ppos s) (log s))
  | QTop b =>
      if may_load s k then
        if k <=? b then
          match cells s (array s) (b mod cap s (array s)) with
          | (_, Some n) :: _ => if k =? b then Some (own_to s (QCas b n) k []) else Some (own_to s OIdle k [EPop (Some n)])
          | _ => Some (own_to s OCrashed k [EAssert])
          end
        else Some (own_to s (QEnd b) k [EPop None])
      else None
  | QCas b n =>
      if top s =? b
      then Some (mkSt (S b) (upd (mtop s) (S b) (now s)) (bots s) (arrs s) (cap s) (cells s) (created s) (now s) (relp s) (S b) (sco s) (sct s) (QEnd b) (thief s) (to_ s) (next s) (ictx s) (gidx s) (spos s) (ppos s) (EPop (Some n) :: log s))
      else Some (own_to s (QEnd b) (tv s) [EPop None])
  | QEnd b => Some (store_bottom s (S b) OIdle [])
  | OIdle | OCrashed => None
  end.

Definition thief_to (s : st) (u : nat) (p : tpc) (o : nat) (e : list event) : st :=
  mkSt (top s) (mtop s) (bots s) (arrs s) (cap s) (cells s) (created s) (now s) (relp s) (tv s) (sco s) (sct s) (own s) (upd (thief s) u p) (upd (to_ s) u o) (next s) (ictx s) (gidx s) (spos s) (ppos s) (e ++ log s).
(** steal() 166-188 *)
Definition thief_step (s : st) (u k : nat) : option st :=
  let o := to_ s u in
  match thief s u with
  | SFence t => (* seq_cst fence *)
      let o' := Nat.max o (sco s) in
      Some (mkSt (top s) (mtop s) (bots s) (arrs s) (cap s) (cells s) (created s) (now s) (relp s) (tv s) o' (Nat.max (sct s) t) (own s) (upd (thief s) u (SBot t)) (upd (to_ s) u o') (next s) (ictx s) (gidx s) (spos s) (ppos s) (log s))
  | SBot t =>
      match nth_error (visible o (bots s)) k with
      | Some (_, (v, r)) => if t <? v then Some (thief_to s u (SArr t) (Nat.max o r) []) else Some (thief_to s u TIdle (Nat.max o r) [ESteal u None])
      | None => None
      end
  | SArr t =>
      match nth_error (visible o (arrs s)) k with
      | Some (_, (a, r)) => Some (thief_to s u (SCell t a) (Nat.max o r) [])
      | None => None
      end
  | SCell t a =>
      let e := EArray u a (created s a <? o) in
      match nth_error (visible o (cells s a (t mod cap s a))) k with
      | Some (_, Some n) => Some (thief_to s u (SPin t n) o [e])
      | Some (_, None) => Some (thief_to s u TCrashed o [EAssert; e])
      | None => None
      end
  | SPin t n =>
      let e := EAccess u n (ppos s n <? o) in
      if pinned (ictx s n) then Some (thief_to s u TIdle o [ESteal u None; e]) else Some (thief_to s u (SCas t n) o [e])
  | SCas t n =>
      if top s =? t
      then let o' := Nat.max o (mtop s t) in
           Some (mkSt (S t) (upd (mtop s) (S t) o') (bots s) (arrs s) (cap s) (cells s) (created s) (now s) (relp s) (tv s) (sco s) (sct s) (own s) (upd (thief s) u TIdle) (upd (to_ s) u o') (next s) (ictx s) (gidx s) (spos s) (ppos s)
                  (ESteal u (Some (n, ppos s n <? o)) :: log s))
      else Some (thief_to s u TIdle o [ESteal u None])
  | TIdle | TCrashed => None
  end.
(** pop() with bottom_ = 0 (before the first push()): see C73. *)
Definition step (s : st) (l : label) : option st :=
  match l with
  | Push c => match own s with
              | OIdle => Some (mkSt (top s) (mtop s) (bots s) (arrs s) (cap s) (cells s) (created s) (now s) (relp s) (tv s) (sco s) (sct s) (PTop (next s) (bottom s)) (thief s) (to_ s) (S (next s)) (upd (ictx s) (next s) c) (gidx s) (spos s) (upd (ppos s) (next s) (now s)) (EPush (next s) c :: log s))
              | _ => None end
  | Pop => match own s with OIdle => match bottom s with S b => Some (own_to s (QBot b) (tv s) []) | O => Some (own_to s OCrashed (tv s) [EAssert]) end | _ => None end
  | Own k => own_step s k
  | Steal u t => match thief s u with TIdle => if t <=? top s then Some (thief_to s u (SFence t) (Nat.max (to_ s u) (mtop s t)) []) else None | _ => None end
  | Go u k => thief_step s u k
  end.
End SpmcWeak.
(** context_spmc_queue.hpp:93-103: the constructor happens before everything else; the owner's clock starts at 1. *)
Definition init_state (capacity : nat) : st :=
  mkSt 0 (fun _ => 1) [(0, (0, 0))] [(0, (0, 0))] (fun _ => capacity) (fun _ _ => [(0, None)]) (fun _ => 0) 1 1 0 1 0 OIdle (fun _ => TIdle) (fun _ => 1) 0 (fun _ => 0) (fun _ => 0) (fun _ => 0) (fun _ => 0) [].
