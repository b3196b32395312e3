(** Model: the functions wait_first_value(), wait_first_value_het(), wait_first_outcome(), wait_first_success(), wait_all_values(), wait_all_until_error() and wait_all_collect_errors() of examples/wait_stuff.cpp, which doc/when_any.qbk presents as recipes. One call with any number of functions; every function runs on a fiber of its own and ends after any time, with a value or with an exception.
    Simplified: buffered_channel is the bounded FIFO queue that C17-C20 prove it to be: one push() or pop() is one step; a push() on a full channel waits until there is room or the channel is closed, which of the waiting fibers comes first is left open. A packaged_task delivers the outcome of its function (C33). *)
From Coq Require Import List Arith Bool.
From Verif Require Import Base.
Import ListNotations.

(** wait_stuff.cpp:221-236 (and 475-488), 303-322, 395-431, 646-665, 731-752, 821-852. *)
Inductive kind := FirstValue | FirstOutcome | FirstSuccess | AllValues | UntilError | CollectErrors.
(** Newest first. The functions are numbered from 0 in the order of the arguments; a value or an exception is given by the number of the function it comes from. *)
Inductive event :=
  | EEnd (i : nat)              (* function i has ended *)
  | EPush (i : nat)             (* its outcome is in the channel *)
  | EDrop (i : nat)             (* its outcome is dropped: push() has returned closed *)
  | EPop (i : nat)              (* the caller takes the outcome from the channel *)
  | EClose                      (* close() *)
  | EReturn (is : list nat)     (* the call returns the values of these functions *)
  | EThrow (is : list nat)      (* the call throws the exceptions of these functions *)
  | EClosed                     (* value_pop() throws because the channel is closed and empty *)
  | ETerminate (i : nat).       (* the exception of function i leaves the fiber: std::terminate() *)
(** Fiber of a function. [PRun]: before the end of the function. [PPush]: before the end of push(). [PDec]: before --limit_ (582). [PDecW v]: v has been read from limit_. [PDone]: the fiber has ended. *)
Inductive ppc := PRun | PPush | PDec | PDecW (v : nat) | PDone.
(** The caller. [CPop got]: before pop() with the outcomes [got] in results and exceptions. [CClose i]: before close() in wait_first_...(). [CDone]: the call has ended. *)
Inductive cpc := CPop (got : list nat) | CClose (i : nat) | CDone.
(** [chan], [closed]: buffered_channel; [limit]: limit_ of nchannel (591). *)
Record st := mkSt { prod : nat -> ppc; cons : cpc; chan : list nat; closed : bool; limit : nat; dead : bool; log : list event }.

(** A channel made with 64 (wait_stuff.cpp:227, 312, 405, 480, 630, 714) has 64 slots, one of which stays empty (buffered_channel.hpp:52-54). *)
Definition room : nat := 63.
(** The fibers push on an nchannel (wait_stuff.cpp:632, 716). *)
Definition counted (k : kind) : bool := match k with AllValues | UntilError | CollectErrors => true | _ => false end.
(** The function is called by a packaged_task (wait_stuff.cpp:269-276), which takes its exception. *)
Definition catches (k : kind) : bool := match k with FirstValue | AllValues => false | _ => true end.

Section M.
(** [n] functions; [cap]: the room in the channel; [ok i]: function i returns a value. [par]: the fibers run on several threads (algo::shared_work, algo::work_stealing); otherwise a fiber that has the processor keeps it until it has to wait. *)
Context (k : kind) (n cap : nat) (ok : nat -> bool) (par : bool).

(** The channel and the fibers have been made (wait_stuff.cpp:227-231, 312-316, 405-409, 630-636, 714-720), no fiber has run. *)
Definition init_state : st := mkSt (fun _ => PRun) (CPop []) [] false n false [].
Inductive label := End (i : nat) | Push (i : nat) | DecR (i : nat) | DecW (i : nat) | Cons.

(** nchannel::push() after the push to the channel, in one piece (wait_stuff.cpp:581-586). *)
Definition dec (s : st) (i : nat) : st :=
  let l := pred (limit s) in
  mkSt (upd (prod s) i PDone) (cons s) (chan s) (closed s || Nat.eqb l 0) l (dead s) ((if Nat.eqb l 0 then [EClose] else []) ++ log s).
(** push() (wait_stuff.cpp:198, 276, 578-587, buffered_channel.hpp:167-188). *)
Definition push (s : st) (i : nat) : option st :=
  if closed s then Some (mkSt (upd (prod s) i PDone) (cons s) (chan s) (closed s) (limit s) (dead s) (EDrop i :: log s))
  else if length (chan s) <? cap then
    let s' := mkSt (upd (prod s) i (if counted k then PDec else PDone)) (cons s) (chan s ++ [i]) (closed s) (limit s) (dead s) (EPush i :: log s) in
    Some (if counted k && negb par then dec s' i else s')
  else None.
(** The function ends (wait_stuff.cpp:198, 272, 601). On one thread the fiber goes on with push() at once. *)
Definition ended (s : st) (i : nat) : st :=
  if catches k || ok i then
    let s' := mkSt (upd (prod s) i PPush) (cons s) (chan s) (closed s) (limit s) (dead s) (EEnd i :: log s) in
    if par then s' else match push s' i with Some s'' => s'' | None => s' end
  else mkSt (prod s) (cons s) (chan s) (closed s) (limit s) true (ETerminate i :: EEnd i :: log s).
(** The caller goes on (model only). *)
Definition cput (s : st) (c : cpc) (q : list nat) (es : list event) : st := mkSt (prod s) c q (closed s) (limit s) (dead s) (es ++ log s).
(** What the caller does with the outcome of i: wait_stuff.cpp:233, 318, 413-428, 661-663, 748-750, 839-846. *)
Definition take (s : st) (got : list nat) (i : nat) (q : list nat) : st :=
  match k with
  | FirstValue | FirstOutcome => cput s (CClose i) q [EPop i]
  | FirstSuccess =>
      if ok i then cput s (CClose i) q [EPop i]
      else if S (length got) <? n then cput s (CPop (got ++ [i])) q [EPop i] else cput s CDone q [EThrow (got ++ [i]); EPop i]
  | AllValues | CollectErrors => cput s (CPop (got ++ [i])) q [EPop i]
  | UntilError => if ok i then cput s (CPop (got ++ [i])) q [EPop i] else cput s CDone q [EThrow [i]; EPop i]
  end.
(** The channel is closed and empty: value_pop() throws (buffered_channel.hpp:308-312), the loops with pop() end (wait_stuff.cpp:665, 752, 847-852). *)
Definition finish (got : list nat) : event :=
  match k with
  | FirstValue | FirstOutcome | FirstSuccess => EClosed
  | AllValues | UntilError => EReturn got
  | CollectErrors => match filter (fun i => negb (ok i)) got with [] => EReturn got | es => EThrow es end
  end.

(** One step. *)
Definition step (s : st) (l : label) : option st :=
  if dead s then None else
  match l with
  | End i => if i <? n then match prod s i with PRun => Some (ended s i) | _ => None end else None
  | Push i => if i <? n then match prod s i with PPush => push s i | _ => None end else None
  (* --limit_ on several threads: it is read and written, wait_stuff.cpp:582-585 *)
  | DecR i => match prod s i with PDec => Some (mkSt (upd (prod s) i (PDecW (limit s))) (cons s) (chan s) (closed s) (limit s) (dead s) (log s)) | _ => None end
  | DecW i => match prod s i with PDecW v => Some (dec (mkSt (prod s) (cons s) (chan s) (closed s) v (dead s) (log s)) i) | _ => None end
  | Cons => match cons s with
      | CPop got => match chan s with
          | i :: q => Some (take s got i q)
          | [] => if closed s then Some (cput s CDone [] [finish got]) else None
          end
      (* wait_stuff.cpp:235-236, 320-322, 421-423 *)
      | CClose i => Some (mkSt (prod s) CDone (chan s) true (limit s) (dead s) ((if ok i then EReturn [i] else EThrow [i]) :: EClose :: log s))
      | CDone => None
      end
  end.
End M.
