(** Theorems about the creation and destruction of the runtime of a thread (properties C58, C68). *)
From Coq Require Import List Arith Bool Lia.
From Verif Require Import Base Init.
Import ListNotations.

(** ** Specification: the events of a thread, oldest first. *)
Definition call (l : label) : Prop := l = Active \/ l = Init.
(** What the calls of a thread have to return, runtime 0 being created by the first one: active() a context of that runtime, initialize_thread() true only if it comes first. *)
Definition answer_of (first : bool) (l : label) : event := match l with Init => RetInit first | _ => RetActive (Some 0) end.
Definition trace (ls : list label) : list event :=
  match ls with [] => [] | l :: ls' => Created 0 :: answer_of true l :: map (answer_of false) ls' end.

(** ** Proofs *)
Definition settled (lg : list event) : st := mkSt 1 (Some 0) Alive 1 false lg.
Lemma exec_settled ls : Forall call ls -> forall lg, exec step (settled lg) ls = Some (settled (rev (map (answer_of false) ls) ++ lg)).
Proof.
  induction 1 as [|l ls C F IH]; intros lg; simpl; auto. assert (E : step (settled lg) l = Some (settled (answer_of false l :: lg))) by (destruct C as [-> | ->]; reflexivity).
  rewrite E, IH, <- app_assoc. reflexivity.
Qed.
Lemma exec_first l ls : call l -> Forall call ls -> exec step init_state (l :: ls) = Some (settled (rev (trace (l :: ls)))).
Proof.
  intros C F. assert (E : step init_state l = Some (settled [answer_of true l; Created 0])) by (destruct C as [-> | ->]; reflexivity).
  simpl exec. rewrite E, (exec_settled ls F). do 2 f_equal. simpl. rewrite <- app_assoc. reflexivity.
Qed.

(** ** C58. Whatever calls a thread makes: the first one creates the runtime, none of the others creates or destroys one (all of them answer from that runtime), and the end of the thread destroys exactly that runtime. A thread without calls creates nothing. *)
Theorem C58_once ls : Forall call ls ->
  exists s, exec step init_state ls = Some s /\ rev (log s) = trace ls /\ bad s = false /\
    exists s', step s Exit = Some s' /\ bad s' = false /\ rev (log s') = trace ls ++ (if ls then [] else [Destroyed 0]).
Proof.
  intros F. destruct ls as [|l ls].
  - exists init_state. simpl. splits; auto. eexists. splits; reflexivity.
  - inversion F; subst. exists (settled (rev (trace (l :: ls)))). split; [now apply exec_first|]. split; [unfold settled; cbn [log]; now rewrite rev_involutive|]. split; [reflexivity|].
    exists (mkSt 0 None Dead 1 false (Destroyed 0 :: rev (trace (l :: ls)))). split; [reflexivity|]. split; [reflexivity|]. cbn [log rev]. now rewrite rev_involutive.
Qed.
(** ** C68. After the thread-local object has been destroyed (a call from the destructor of another thread_local object), active() returns nullptr, and initialize_thread() answers true but the runtime it created is gone when it returns. *)
Theorem C68_refuted : exists s, exec step init_state [Active; Exit; Active] = Some s /\ rev (log s) = [Created 0; RetActive (Some 0); Destroyed 0; RetActive None].
Proof. eexists. split; reflexivity. Qed.
Theorem C68_refuted_init : exists s, exec step init_state [Active; Exit; Init; Active] = Some s /\ rev (log s) = [Created 0; RetActive (Some 0); Destroyed 0; Created 1; Destroyed 1; RetInit true; RetActive None].
Proof. eexists. split; reflexivity. Qed.
(** Before that, active() always returns a context of a runtime that exists. *)
Theorem C68_alive_partial ls s : ~ In Exit ls -> exec step init_state ls = Some s -> forall s', step s Active = Some s' ->
  exists r, hd_error (log s') = Some (RetActive (Some r)) /\ In (Created r) (log s') /\ ~ In (Destroyed r) (log s').
Proof.
  intros Nx E s' St. assert (F : Forall call ls). { apply Forall_forall. intros l Hl. destruct l; [now left|now right|contradiction]. }
  assert (F2 : Forall call (ls ++ [Active])) by (apply Forall_app; split; auto; constructor; [now left|constructor]).
  assert (E2 : exec step init_state (ls ++ [Active]) = Some s') by (apply exec_app; exists s; split; auto; simpl; now rewrite St).
  destruct ls as [|l ls].
  - simpl in E2. injection E2 as <-. exists 0. simpl. splits; auto. intuition discriminate.
  - simpl in F2. inversion F2; subst. change ((l :: ls) ++ [Active]) with (l :: (ls ++ [Active])) in E2. rewrite exec_first in E2 by auto. injection E2 as <-. exists 0. unfold settled, trace. cbn [log]. rewrite map_app. simpl. rewrite rev_app_distr. simpl. splits; auto.
    + right. rewrite <- app_assoc. apply in_or_app. right. simpl. auto.
    + intros [X|X]; [discriminate|]. rewrite <- app_assoc in X. apply in_app_or in X. destruct X as [X|X].
      * apply in_rev in X. apply in_map_iff in X. destruct X as (l' & X & _). destruct l'; discriminate.
      * simpl in X. destruct X as [X|[X|[]]]; [destruct l|]; discriminate.
Qed.

Example C58_ex : Forall call [Init; Active; Init; Active] /\ trace [Init; Active; Init; Active] = [Created 0; RetInit true; RetActive (Some 0); RetInit false; RetActive (Some 0)].
Proof. split; [|reflexivity]. unfold call. repeat (apply Forall_cons; [auto|]). apply Forall_nil. Qed.
Example C68_ex : exists s, exec step init_state [Init; Active] = Some s /\ ~ In Exit [Init; Active].
Proof. eexists. split; [reflexivity|]. intros [|[|[]]]; discriminate. Qed.

Print Assumptions C58_once.
Print Assumptions C68_refuted.
Print Assumptions C68_refuted_init.
Print Assumptions C68_alive_partial.
