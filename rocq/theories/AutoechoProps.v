(** C141: the echo example ends, and the clients get their messages back. *)
From Coq Require Import List Arith Bool Lia.
From Verif Require Import Base Autoecho AutoechoSpec AutoechoFacts AutoechoFacts2.
Import ListNotations.

Definition hello (i k : nat) : list nat := [i; k; 5].
Definition once (i c : nat) : list label := [Connect i; Accept c; Write i; SRd c 3; SWr c; Reply i 3; SEof c].
Ltac tries n := destruct n as [|n]; [reflexivity|]; destruct n as [|n]; [reflexivity|]; destruct n as [|n]; [reflexivity|]; try (destruct n; reflexivity).
Ltac no_step := intros l O; destruct l as [i|i|i n|i|i|i|i|c|c n|c|c|c| | | | | |c b|c]; try (elim O; exact Logic.I); try reflexivity; first [tries i|tries c].

(** One session gets an error: its client sees the end of the connection and returns without calling wait() of the barrier, so that the other client waits for ever and the acceptor is never closed. *)
Definition lost : list label := once 0 0 ++ [Arrive 0; Connect 1; Accept 1; SErr 1; Write 1; CEof 1].
Theorem C141_lost_refuted : exists s, reachable (step 1 hello) (init_state 2) s /\ hangs 1 hello s /\ cl s = [CWait; CGone] /\ closed s = false.
Proof.
  destruct (exec (step 1 hello) (init_state 2) lost) as [s|] eqn:E; [|vm_compute in E; discriminate].
  exists s. split; [exists lost; exact E|]. vm_compute in E. injection E as <-. splits; auto. unfold hangs. splits; auto. no_step.
Qed.
(** Another program has connected and does not close: its session is left behind by stop(), and the scheduler waits for it for ever. *)
Definition left_over : list label := [ExtConn; Accept 0] ++ once 0 1 ++ [Arrive 0; Leave 0; Abort; Stop; MainRet].
Theorem C141_left_refuted : exists s, reachable (step 1 hello) (init_state 1) s /\ hangs 1 hello s /\ mret s = true /\ ~ client_lost s.
Proof.
  destruct (exec (step 1 hello) (init_state 1) left_over) as [s|] eqn:E; [|vm_compute in E; discriminate].
  exists s. split; [exists left_over; exact E|]. vm_compute in E. injection E as <-. splits; auto.
  - unfold hangs. splits; auto. no_step.
  - unfold client_lost. simpl. intros [X|X]; [discriminate|exact X].
Qed.
(** The same without other programs: the end of the client's connection has not arrived yet when the server stops the io_context. *)
Definition late : list label := [Connect 0; Accept 0; Write 0; SRd 0 3; SWr 0; Reply 0 3; Arrive 0; Leave 0; Abort; Stop; MainRet].
Theorem C141_late_refuted : exists s, reachable (step 1 hello) (init_state 1) s /\ hangs 1 hello s /\ Forall (fun l => ~ outside l) late /\ In EClose (log s).
Proof.
  destruct (exec (step 1 hello) (init_state 1) late) as [s|] eqn:E; [|vm_compute in E; discriminate].
  exists s. split; [exists late; exact E|]. vm_compute in E. injection E as <-. splits; auto; try (simpl; auto).
  - unfold hangs. splits; auto. no_step.
  - unfold late. repeat constructor; simpl; auto.
Qed.
(** read_some() may return a part of the message. *)
Definition short : list label := [Connect 0; Accept 0; Write 0; SRd 0 2; SWr 0; Reply 0 2].
Theorem C141_short_refuted : exists s, reachable (step 1 hello) (init_state 1) s /\ In (EReply 0 0 [0; 0]) (log s) /\ ~ echoed hello (log s).
Proof.
  apply (reach_by (step 1 hello) (init_state 1) short). vm_compute. split; auto. intros H. specialize (H 0 0 [0; 0] (or_introl eq_refl)). discriminate.
Qed.

(** If the program hangs, a client has lost its connection, or a session is left behind after stop(). *)
Theorem C141_hang_partial nc it msg s : 0 < nc -> (forall i k, msg i k <> []) -> reachable (step it msg) (init_state nc) s -> hangs it msg s -> client_lost s \/ session_left s.
Proof. intros N M R H. eapply stuck_cases; eauto. apply reach_inv; auto. Qed.
(** It does not run for ever, unless other programs keep it busy. *)
Theorem C141_finite nc it msg (f : nat -> st) (ls : nat -> label) : 0 < nc -> reachable (step it msg) (init_state nc) (f 0) -> ~ (forall n, ~ outside (ls n) /\ step it msg (f n) (ls n) = Some (f (S n))).
Proof. intros N R H. eapply no_infinite; eauto. apply reach_inv; eauto. Qed.
Theorem C141_echo_partial nc it msg s : 0 < nc -> reachable (step it msg) (init_state nc) s -> echoed_part msg (log s).
Proof.
  intros N R i k r H. apply (reach_inv nc it msg) in R; auto. pose proof (i_log _ _ _ _ R) as G. clear - G H.
  induction (log s) as [|e l IH]; simpl in *; [tauto|]. destruct G as (G1 & G2). destruct H as [->|H]; auto.
Qed.
Theorem C141_close nc it msg s : 0 < nc -> reachable (step it msg) (init_state nc) s -> closed_last nc it (log s).
Proof.
  intros N R l1 l2 E. apply (reach_inv nc it msg) in R; auto. pose proof (i_log _ _ _ _ R) as G. rewrite E in G. clear - G. induction l1 as [|e l1 IH]; simpl in G.
  - splits; try tauto; apply G.
  - destruct G as (G1 & G2). destruct (IH G2) as (A & B & C). splits; auto. intros [->|X]; auto. simpl in G1. apply G1. apply in_or_app. right. left. auto.
Qed.

(** Two clients, two iterations, one with pieces: the program ends. *)
Definition fine : list label := once 0 0 ++ [Connect 1; Accept 1; Write 1; SRd 1 1; SWr 1; SRd 1 2; SWr 1; Reply 1 3] ++ once 1 2 ++ [SEof 1] ++ once 0 3 ++ [Arrive 0; Arrive 1; Leave 1; Abort; Leave 0; Stop; MainRet; Finish].
Example C141_fine : exists s, reachable (step 2 hello) (init_state 2) s /\ ended s = true /\ log s = [EClose; EReply 0 1 [0; 1; 5]; EReply 1 1 [1; 1; 5]; EReply 1 0 [1; 0; 5]; EReply 0 0 [0; 0; 5]].
Proof. apply (reach_by (step 2 hello) (init_state 2) fine). vm_compute. auto. Qed.
Example C141_meets : 0 < 2 /\ (forall i k, hello i k <> []) /\ exists s, reachable (step 1 hello) (init_state 2) s /\ hangs 1 hello s.
Proof. splits; [lia|discriminate|]. destruct C141_lost_refuted as (s & R & H & _). eauto. Qed.
Example C141_close_meets : exists s l2, reachable (step 1 hello) (init_state 1) s /\ log s = [] ++ EClose :: l2.
Proof.
  destruct (exec (step 1 hello) (init_state 1) late) as [s|] eqn:E; [|vm_compute in E; discriminate].
  exists s. eexists. split; [exists late; exact E|]. vm_compute in E. injection E as <-. reflexivity.
Qed.
(** Other programs can keep it busy for ever. *)
Example C141_finite_meets : exists f, reachable (step 1 hello) (init_state 1) (f 0) /\ forall n, step 1 hello (f n) ExtConn = Some (f (S n)).
Proof.
  exists (fun n => Nat.iter n (fun s => set_cs s (cs s ++ [mkConn None [] [] [] false SPend])) (init_state 1)). split; [exists []; reflexivity|].
  intros n. simpl. set (g := fun s => set_cs s (cs s ++ [mkConn None [] [] [] false SPend])).
  assert (X : let s := Nat.iter n g (init_state 1) in term s = false /\ ended s = false /\ closed s = false) by (induction n; simpl in *; auto).
  destruct X as (A & B & C). unfold step. rewrite A, B, C. reflexivity.
Qed.
Print Assumptions C141_lost_refuted.
Print Assumptions C141_left_refuted.
Print Assumptions C141_late_refuted.
Print Assumptions C141_short_refuted.
Print Assumptions C141_hang_partial.
Print Assumptions C141_finite.
Print Assumptions C141_echo_partial.
Print Assumptions C141_close.
