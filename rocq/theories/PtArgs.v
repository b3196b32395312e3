(** Model: what the function of a packaged_task gets as its arguments (future/packaged_task.hpp:117-122, future/detail/task_object.hpp:56-74), for parameters of type T const& and a result of type T or T const&. Objects are numbered; a reference is the number of the object. *)
From Coq Require Import List Arith NArith Bool.
From Verif Require Import Base.
Import ListNotations.

(** The memory: the value of every object that lives. *)
Definition memory := nat -> option N.
(** What the callable target does: it returns a value or a reference, or throws (task_object.hpp:57-73). It is given the memory and its arguments; it does not write, its parameters are references to const. *)
Inductive outcome := RetVal (v : N) | RetRef (a : nat) | Throws (e : nat).
Definition target := memory -> list nat -> outcome.
(** The contents of the shared state: storage_ (future/detail/shared_state.hpp:165-177), value_ (224-231), except_. *)
Inductive content := CVal (v : N) | CRef (a : nat) | CExc (e : nat).

(** std::make_tuple( std::forward< Args >( args) ... ) (task_object.hpp:61, 64): the type of an element is the decayed type, hence the elements are new objects, copied from the arguments; they are the objects [n], [n + 1], ... [bad v]: the copy constructor of T throws for the value [v]. [None]: an argument refers to an object that does not live. The memory, or the exception of a copy constructor; the elements. *)
Fixpoint make_tuple (bad : N -> option nat) (m : memory) (n : nat) (args : list nat) : option ((memory + nat) * list nat) :=
  match args with
  | [] => Some (inl m, [])
  | a :: r => match m a with
      | None => None
      | Some v => match bad v with
          | Some e => Some (inr e, [])
          | None => match make_tuple bad (upd m n (Some v)) (S n) r with
              | None => None
              | Some (m', t) => Some (m', n :: t)
              end
          end
      end
  end.
(** set_value() of the result (task_object.hpp:58; shared_state.hpp:168, 229). *)
Definition store (o : outcome) : content := match o with RetVal v => CVal v | RetRef a => CRef a | Throws e => CExc e end.
(** task_object::run() (task_object.hpp:56-74) on a shared state that is not ready: apply( fn_, make_tuple( ...) ), set_value(), or set_exception() of whatever was thrown. [n]: the first number that no object has. At the end of the full expression (66) the elements of the tuple are destroyed: the memory is [m] again. *)
Definition run (bad : N -> option nat) (f : target) (m : memory) (n : nat) (args : list nat) : option (content * memory) :=
  match make_tuple bad m n args with
  | None => None
  | Some (inr e, _) => Some (CExc e, m)
  | Some (inl m', t) => Some (store (f m' t), m)
  end.
(** What the owner of the future finds (shared_state.hpp:181-187, 233-240) and reads: a value, an exception, or [Dangling]: a reference to an object that does not live. *)
Inductive found := FVal (v : N) | FExc (e : nat) | Dangling.
Definition get (m : memory) (c : content) : found :=
  match c with CVal v => FVal v | CExc e => FExc e | CRef a => match m a with Some v => FVal v | None => Dangling end end.
