(** C116, C117, C118: the publish/subscribe server examples/asio/ps/server.cpp. *)
From Coq Require Import List Arith Bool Lia.
From Verif Require Import Base PubSub PubSubSpec PubSubFacts.
Import ListNotations.

(** C116 is false: the second message is published while the fiber of the subscriber writes the first one to its client; the subscriber then waits for a notification that has already happened. *)
Theorem C116_refuted : exists t, reachable step init_state t /\ subs t 0 = SWait /\ subscribed 0 (log t) = Some 1 /\ owed 0 (log t) = [Txt 2; Txt 1] /\ written 0 (log t) = [Txt 1].
Proof. apply (reach_by step init_state [POpen 0 1; SOpen 0 1; PMsg 0 (Txt 1); SGo 0; PMsg 0 (Txt 2); SDone 0 true]). vm_compute. auto. Qed.
Print Assumptions C116_refuted.

(** C116 in all executions: what is written to a client are messages that have been published on its queue while it was subscribed, in the order of the publication and none more often than it was published. *)
Theorem C116_order_partial : forall t s, reachable step init_state t -> subseq (written s (log t)) (owed s (log t)).
Proof.
  intros t s R. pose proof (i_order t (inv_reach t R) s) as H. destruct (subs t s); auto; try (now apply subseq_tail in H). destruct H as (-> & ->). constructor.
Qed.
Print Assumptions C116_order_partial.

(** C116 if publishers do something only when no subscriber is busy: a subscriber that waits has been given all messages, and one that does not is about to read or writing the newest one. *)
Theorem C116_all_partial : forall t s, paced t ->
  match subs t s with
  | SWait => written s (log t) = owed s (log t)
  | SReady => buf t s :: written s (log t) = owed s (log t)
  | SWrite m => m :: written s (log t) = owed s (log t)
  | SNew => owed s (log t) = []
  | SEnd => subseq (written s (log t)) (owed s (log t)) end.
Proof.
  intros t s P. destruct (paced_inv t P) as (Iv & Pi). specialize (Pi s). pose proof (i_order t Iv s) as O. unfold pinv1 in Pi. destruct (subs t s); tauto.
Qed.
Print Assumptions C116_all_partial.

(** C116: the fiber of a subscriber that has been notified goes on to write the message, or ends if the message is "<fini>". *)
Theorem C116_goes_on : forall t s, subs t s = SReady -> exists t', step t (SGo s) = Some t' /\ match buf t s with Fini => subs t' s = SEnd | Txt v => subs t' s = SWrite (Txt v) end.
Proof.
  intros t s S. unfold step. rewrite S. eexists. split; [reflexivity|]. destruct (buf t s); unfold sunsub; cbn [subs]; now rewrite upd_same.
Qed.
Print Assumptions C116_goes_on.

(** C117 is false: a second publisher that uses the name of an existing queue is refused and unregisters that queue when its session ends; the publication of the first publisher fails. *)
Theorem C117_refuted : exists t, reachable step init_state t /\ log t = [EUnreg 0 1; EPubFail 0 1; EUnreg 1 1; ERegFail 1 1; EReg 0 1].
Proof. apply (reach_by step init_state [POpen 0 1; POpen 1 1; PMsg 0 (Txt 1)]). vm_compute. auto. Qed.
Print Assumptions C117_refuted.

(** C117 if all publishers use different names that are not empty: the queue of a connected publisher exists, no other publisher publishes on it, and neither a registration nor a publication fails. *)
Theorem C117_names_partial : forall t, distinct t ->
  (forall p, pubs t p = PRun -> queues t (pq t p) <> None) /\
  (forall p p', pubs t p = PRun -> pubs t p' = PRun -> pq t p = pq t p' -> p = p') /\
  (forall q, queues t q <> None -> exists p, pubs t p = PRun /\ pq t p = q) /\
  (forall p q, ~ In (EPubFail p q) (log t) /\ ~ In (ERegFail p q) (log t)).
Proof.
  intros t D. destruct (distinct_inv t D) as [A B C F]. splits; auto.
  - intros p Hp. apply A. auto.
  - split; intros X; exact (F _ X).
Qed.
Print Assumptions C117_names_partial.

(** C118 is false: the queue is unregistered while the fiber of the subscriber writes a message; it misses the notification and waits for ever, whatever happens afterwards. *)
Theorem C118_refuted : exists t, reachable step init_state t /\ log t = [EWrite 0 (Txt 1); EUnreg 0 1; EPub 0 1 (Txt 1); ESub 0 1; EReg 0 1] /\ forall tr t', exec step t tr = Some t' -> subs t' 0 = SWait.
Proof.
  assert (X : exists t, reachable step init_state t /\ log t = [EWrite 0 (Txt 1); EUnreg 0 1; EPub 0 1 (Txt 1); ESub 0 1; EReg 0 1] /\ subs t 0 = SWait).
  { apply (reach_by step init_state [POpen 0 1; SOpen 0 1; PMsg 0 (Txt 1); SGo 0; PClose 0; SDone 0 true]). vm_compute. auto. }
  destruct X as (t & R & L & W). exists t. splits; auto. intros tr t' E. apply (orphan_exec 0 tr t t'); auto. split; auto.
  intros q l Q I. pose proof (i_in t (inv_reach t R) q 0) as H. rewrite Q in H. apply H in I. rewrite L in I. discriminate.
Qed.
Print Assumptions C118_refuted.

(** C118 if publishers do something only when no subscriber is busy: a subscriber that waits is subscribed to a queue that exists; one whose queue has been unregistered ends as soon as its fiber goes on. *)
Theorem C118_ends_partial : forall t s, paced t ->
  (subs t s = SWait -> exists l, queues t (sq t s) = Some l /\ In s l) /\
  (subscribed s (log t) = None -> subs t s = SNew \/ subs t s = SEnd \/ exists t', step t (SGo s) = Some t' /\ subs t' s = SEnd).
Proof.
  intros t s P. destruct (paced_inv t P) as (Iv & Pi). specialize (Pi s). unfold pinv1 in Pi. split.
  - intros W. rewrite W in Pi. destruct Pi as (_ & S). pose proof (i_in t Iv (sq t s) s) as H. destruct (queues t (sq t s)) as [l|]; [|congruence]. exists l. tauto.
  - intros N. rewrite N in Pi. destruct (subs t s) eqn:S; auto; try (destruct Pi; discriminate). right. right. destruct Pi as (_ & [X|X]); [discriminate|]. destruct (C116_goes_on t s S) as (t' & E & Y). rewrite X in Y. eauto.
Qed.
Print Assumptions C118_ends_partial.

(** C118 in all executions: a session that has ended is in no queue, so nothing is published to it. *)
Theorem C118_gone : forall t s q l, reachable step init_state t -> subs t s = SEnd -> queues t q = Some l -> ~ In s l.
Proof.
  intros t s q l R S Q I. pose proof (inv_reach t R) as [Ii Is _]. specialize (Ii q s). rewrite Q in Ii. apply Ii in I. specialize (Is s). rewrite S in Is. congruence.
Qed.
Print Assumptions C118_gone.

(** Two subscribers and two queues; everything is delivered and the sessions end. *)
Example C116_case : exists t, reachable step init_state t /\ subs t 0 = SEnd /\ subs t 1 = SWait /\ written 0 (log t) = [Txt 3; Txt 1] /\ written 1 (log t) = [Txt 2].
Proof. apply (reach_by step init_state [POpen 0 1; POpen 1 2; SOpen 0 1; SOpen 1 2; PMsg 0 (Txt 1); SGo 0; SDone 0 true; PMsg 1 (Txt 2); SGo 1; SDone 1 true; PMsg 0 (Txt 3); SGo 0; SDone 0 true; PClose 0; SGo 0]). vm_compute. auto. Qed.
(** The hypotheses of the partial theorems are met by executions in which messages are written. *)
Example C116_case_paced : exists t, paced t /\ subs t 0 = SWait /\ written 0 (log t) = [Txt 5].
Proof.
  pose proof (paced_step _ (POpen 0 1) _ paced_init (fun _ s => I) eq_refl) as P1.
  pose proof (paced_step _ (SOpen 0 1) _ P1 (fun X => match Bool.diff_false_true X with end) eq_refl) as P2.
  pose proof (paced_step _ (PMsg 0 (Txt 5)) _ P2 (fun _ s => match s with 0 => I | S _ => I end) eq_refl) as P3.
  pose proof (paced_step _ (SGo 0) _ P3 (fun X => match Bool.diff_false_true X with end) eq_refl) as P4.
  pose proof (paced_step _ (SDone 0 true) _ P4 (fun X => match Bool.diff_false_true X with end) eq_refl) as P5.
  eexists. split; [exact P5|]. split; reflexivity.
Qed.
Example C117_case : exists t, distinct t /\ pubs t 0 = PRun /\ pubs t 1 = PRun /\ In (EPub 0 1 (Txt 5)) (log t).
Proof.
  assert (A1 : forall p q, POpen 0 1 = POpen p q -> q <> 0 /\ forall p', pubs init_state p' = PRun -> pq init_state p' <> q) by (intros p q X; injection X as <- <-; split; [discriminate|intros p'; discriminate]).
  pose proof (distinct_step _ (POpen 0 1) _ distinct_init A1 eq_refl) as P1.
  match type of P1 with distinct ?t1 => assert (A2 : forall p q, POpen 1 2 = POpen p q -> q <> 0 /\ forall p', pubs t1 p' = PRun -> pq t1 p' <> q) by (intros p q X; injection X as <- <-; split; [discriminate|intros [|p']; discriminate]) end.
  pose proof (distinct_step _ (POpen 1 2) _ P1 A2 eq_refl) as P2.
  match type of P2 with distinct ?t2 => assert (A3 : forall p q, PMsg 0 (Txt 5) = POpen p q -> q <> 0 /\ forall p', pubs t2 p' = PRun -> pq t2 p' <> q) by discriminate end.
  pose proof (distinct_step _ (PMsg 0 (Txt 5)) _ P2 A3 eq_refl) as P3.
  eexists. split; [exact P3|]. splits; try reflexivity. simpl. auto.
Qed.
