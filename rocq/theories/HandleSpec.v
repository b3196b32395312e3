(** Specification vocabulary for handles of fibers. *)
From Coq Require Import List Arith Bool.
From Verif Require Import Base Handle.
Import ListNotations.

(** Handle h refers to fiber c. *)
Definition refers (s : st) (h c : nat) : Prop := hnd s h = Some (Some c).
(** Fiber c has been created / given up by detach(). *)
Definition made (l : list event) (c : nat) : Prop := exists f h, In (ECreate f h c) l.
Definition detached (l : list event) (c : nat) : Prop := exists f h, In (EDetach f h c) l.
(** Some fiber waits in join() called on handle h. *)
Definition being_joined (s : st) (h : nat) : Prop := exists f c, joining s f = Some (h, c).
(** The label stores into handle h or begins or ends its life. *)
Definition writes (l : label) (h : nat) : Prop :=
  match l with
  | Create _ x | Default _ x | Destroy _ x => x = h
  | MoveTo _ d _ => d = h
  | Assign _ d r | Swap _ d r => d = h \/ r = h
  | _ => False
  end.
(** Executions in which no fiber stores into a handle or destroys it while another one waits in join() called on it (emptying it by detach(), by another join(), or by moving from it with the move constructor is allowed). *)
Inductive quiet : st -> Prop :=
  | q_init : quiet init_state
  | q_step : forall s l s', quiet s -> (forall h, being_joined s h -> ~ writes l h) -> step s l = Some s' -> quiet s'.
