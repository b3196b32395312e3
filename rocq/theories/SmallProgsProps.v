(** C152, C153: the programs ping_pong.cpp and range_for.cpp. *)
From Coq Require Import List Arith NArith Bool Lia.
From Verif Require Import Base SmallProgs.
Import ListNotations.

(** What [k] rounds print, oldest first. *)
Definition rounds (k : nat) : list word := concat (repeat [Ping; Pong] k).
(** Both fibers have ended. *)
Definition pp_done (n : nat) (s : pp) : Prop := pi s = n /\ qi s = n /\ ph s = false /\ qh s = false.

Lemma rounds_S : forall k, rounds (S k) = rounds k ++ [Ping; Pong].
Proof. intros k. unfold rounds. replace (S k) with (k + 1) by lia. rewrite repeat_app, concat_app. reflexivity. Qed.
Definition phase (n : nat) (s : pp) (t : nat) : Prop := exists k, k <= n /\
  (s = PP k false k false [] [] (rev (rounds k)) /\ t = 4 * k \/
   k < n /\ s = PP k true k false [Ping] [] (rev (rounds k)) /\ t = 4 * k + 1 \/
   k < n /\ s = PP k true k true [] [] (Ping :: rev (rounds k)) /\ t = 4 * k + 2 \/
   k < n /\ s = PP k true (S k) false [] [Pong] (Ping :: rev (rounds k)) /\ t = 4 * k + 3).
Lemma phase_step : forall n cap s t l s', phase n s t -> pp_step n cap s l = Some s' -> phase n s' (S t).
Proof.
  intros n cap s t l s' (k & K & H) St.
  destruct H as [(-> & ->)|[(L & -> & ->)|[(L & -> & ->)|(L & -> & ->)]]]; destruct l; simpl in St; destruct (Nat.eqb_spec k n); try (exfalso; lia); try discriminate.
  - destruct (0 <? cap); [|discriminate]. injection St as <-. exists k. split; auto. right. left. splits; auto; lia.
  - injection St as <-. exists k. split; auto. right. right. left. splits; auto; lia.
  - destruct (0 <? cap); [|discriminate]. injection St as <-. exists k. split; auto. right. right. right. splits; auto; lia.
  - injection St as <-. exists (S k). split; [lia|]. left. split; [|lia]. rewrite rounds_S, rev_app_distr. reflexivity.
  - destruct n as [|m]; [lia|]. destruct (k =? m); discriminate.
Qed.
Lemma exec_phase : forall n cap ls s t s', phase n s t -> exec (pp_step n cap) s ls = Some s' -> phase n s' (t + length ls).
Proof.
  intros n cap. induction ls as [|l ls IH]; intros s t s' H E; simpl in E; [injection E as <-; now rewrite Nat.add_0_r|].
  destruct (pp_step n cap s l) as [s1|] eqn:St; [|discriminate]. simpl length. replace (t + S (length ls)) with (S t + length ls) by lia. eapply IH; eauto. eapply phase_step; eauto.
Qed.
Lemma phase_init : forall n, phase n pp_init 0.
Proof. intros n. exists 0. split; [lia|]. left. auto. Qed.

(** C152: for every number of rounds and every capacity: whatever was printed at any time is an alternating sequence that begins with ping; no channel ever holds more than one string. *)
Theorem C152_alternates : forall n cap s, reachable (pp_step n cap) pp_init s ->
  exists k, k <= n /\ (rev (out s) = rounds k \/ k < n /\ rev (out s) = rounds k ++ [Ping]) /\ length (c1 s) + length (c2 s) <= 1.
Proof.
  intros n cap s (ls & E). destruct (exec_phase n cap ls _ 0 s (phase_init n) E) as (k & K & H). exists k. split; auto.
  destruct H as [(-> & _)|[(L & -> & _)|[(L & -> & _)|(L & -> & _)]]]; simpl; rewrite rev_involutive; split; auto.
Qed.
Print Assumptions C152_alternates.

(** C152: the program ends: an execution has at most four steps per round, at any time exactly one of the fibers can go on until both have ended, and then exactly [n] rounds were printed and the channels are empty. *)
Theorem C152_ends : forall n cap ls s, 0 < cap -> exec (pp_step n cap) pp_init ls = Some s ->
  length ls <= 4 * n /\
  (length ls < 4 * n -> (pp_step n cap s LPing <> None /\ pp_step n cap s LPong = None) \/ (pp_step n cap s LPing = None /\ pp_step n cap s LPong <> None)) /\
  (length ls = 4 * n -> pp_done n s /\ rev (out s) = rounds n /\ c1 s = [] /\ c2 s = []).
Proof.
  intros n cap ls s P E. destruct (exec_phase n cap ls _ 0 s (phase_init n) E) as (k & K & H). simpl in H. apply Nat.ltb_lt in P.
  destruct H as [(-> & T)|[(L & -> & T)|[(L & -> & T)|(L & -> & T)]]]; unfold pp_done; simpl pi; simpl qi; simpl ph; simpl qh; simpl c1; simpl c2; simpl out; rewrite T; (split; [lia|]); split; try (intros; exfalso; lia); intros HL.
  - left. unfold pp_step; simpl. destruct (Nat.eqb_spec k n); [lia|]. rewrite P. split; [discriminate|reflexivity].
  - assert (k = n) by lia. subst k. rewrite rev_involutive. auto.
  - right. unfold pp_step; simpl. destruct (Nat.eqb_spec k n); [lia|]. split; [reflexivity|discriminate].
  - right. unfold pp_step; simpl. destruct (Nat.eqb_spec k n); [lia|]. rewrite P. split; [reflexivity|discriminate].
  - left. unfold pp_step; cbn [pi ph qi qh c1 c2 out]. destruct (Nat.eqb_spec k n); [lia|]. split; [discriminate|]. destruct (S k =? n); reflexivity.
Qed.
Print Assumptions C152_ends.

Example C152_case : exists s, reachable (pp_step 2 1) pp_init s /\ rev (out s) = [Ping; Pong; Ping; Pong] /\ pp_done 2 s.
Proof. apply (reach_by (pp_step 2 1) pp_init [LPing; LPong; LPong; LPing; LPing; LPong; LPong; LPing]). vm_compute. splits; auto. Qed.

(** The values the producer has not stored yet. *)
Definition left_over (p : prod) : list N := match p with PGo vs | PWait vs => vs | PEnd => [] end.
Definition in_slot (s : rf) : list N := match slot s with Some v => [v] | None => [] end.
Definition rf_inv (vs : list N) (s : rf) : Prop :=
  rev (shown s) ++ in_slot s ++ left_over (prd s) = vs /\ (closed s = true <-> prd s = PEnd) /\ (slot s <> None -> exists r, prd s = PWait r) /\ (con s = CEnd -> closed s = true).
Lemma rf_inv_step : forall vs s l s', rf_inv vs s -> rf_step s l = Some s' -> rf_inv vs s'.
Proof.
  intros vs [sl cl p c sh] l s' (H1 & H2 & H3 & H4) St. unfold rf_inv, in_slot in *. simpl in *. destruct l; simpl in St.
  - destruct p as [[|v r]|r|]; try discriminate.
    + injection St as <-. simpl. destruct sl; [destruct H3 as [r X]; [discriminate|discriminate]|]. simpl in *. splits; auto; [split; auto|intros X; congruence].
    + destruct sl; [discriminate|]. destruct cl; [discriminate|]. injection St as <-. simpl in *. splits; auto; [split; intros; discriminate|intros _; eauto].
  - destruct p as [|r|]; try discriminate. destruct sl; [discriminate|]. injection St as <-. simpl in *. splits; auto; [|intros X; congruence]. split; [intros X; apply H2 in X; discriminate|discriminate].
  - destruct c; [|discriminate]. destruct sl as [v|]; [|discriminate]. injection St as <-. simpl in *. splits; auto; try (intros X; congruence). rewrite <- app_assoc. exact H1.
  - destruct c; [|discriminate]. destruct sl; [discriminate|]. destruct cl; [|discriminate]. injection St as <-. simpl in *. splits; auto.
Qed.
Lemma rf_reach : forall vs s, reachable rf_step (rf_init vs) s -> rf_inv vs s.
Proof. intros vs. apply reachable_inv; [|apply rf_inv_step]. unfold rf_inv; simpl. splits; auto; try discriminate; [split; discriminate|intros X; congruence]. Qed.

(** C153: whatever the consumer has shown is a beginning of the values of the producer, in order and each once; when it has left its loop it has shown all of them. *)
Theorem C153_all_shown : forall vs s, reachable rf_step (rf_init vs) s -> (exists r, rev (shown s) ++ r = vs) /\ (con s = CEnd -> rev (shown s) = vs /\ prd s = PEnd).
Proof.
  intros vs s R. destruct (rf_reach vs s R) as (H1 & H2 & H3 & H4). split; [eexists; exact H1|]. intros C. apply H4 in C. apply H2 in C. split; auto.
  unfold in_slot in H1. destruct (slot s) eqn:E; [destruct H3 as [r X]; [discriminate|congruence]|]. rewrite C in H1. simpl in H1. now rewrite app_nil_r in H1.
Qed.
Print Assumptions C153_all_shown.

(** Steps the program can still take. *)
Definition rest (s : rf) : nat := match prd s with PGo vs => 3 * length vs + 2 | PWait vs => 3 * length vs + 3 | PEnd => 1 end + match slot s with Some _ => 1 | None => 0 end - match con s with CEnd => 1 | CLoop => 0 end.
Lemma rest_step : forall s l s', rf_step s l = Some s' -> (con s = CEnd -> closed s = true) -> (closed s = true <-> prd s = PEnd) -> S (rest s') = rest s.
Proof.
  intros [sl cl p c sh] l s' St Hc Hp. unfold rest. simpl in *. destruct l; simpl in St.
  - destruct p as [[|v r]|r|]; try discriminate; [|destruct sl; [discriminate|]; destruct cl; [discriminate|]]; injection St as <-; simpl; destruct c; try lia;
      (specialize (Hc eq_refl); apply Hp in Hc; discriminate) || (specialize (Hc eq_refl); discriminate).
  - destruct p as [|r|]; try discriminate. destruct sl; [discriminate|]. injection St as <-. simpl. destruct c; lia.
  - destruct c; [|discriminate]. destruct sl as [v|]; [|discriminate]. injection St as <-. simpl. destruct p; lia.
  - destruct c; [|discriminate]. destruct sl; [discriminate|]. destruct cl; [|discriminate]. injection St as <-. simpl. destruct p; lia.
Qed.

(** C153: the program ends: every execution has at most 3 * [length vs] + 2 steps, and as long as a fiber has not ended one of the two can go on. *)
Theorem C153_ends : forall vs ls s, exec rf_step (rf_init vs) ls = Some s ->
  length ls <= 3 * length vs + 2 /\ ((exists l, rf_step s l <> None) \/ (prd s = PEnd /\ con s = CEnd /\ rev (shown s) = vs)).
Proof.
  intros vs ls s E. assert (R : reachable rf_step (rf_init vs) s) by (exists ls; auto). split.
  - assert (X : forall ls s0, rf_inv vs s0 -> exec rf_step s0 ls = Some s -> length ls + rest s = rest s0).
    { clear. induction ls as [|l ls IH]; intros s0 I E; simpl in E; [injection E as <-; auto|]. destruct (rf_step s0 l) as [s1|] eqn:St; [|discriminate].
      pose proof I as (_ & Hp & _ & Hc). pose proof (rest_step _ _ _ St Hc Hp). assert (J : rf_inv vs s1) by (eapply rf_inv_step; eauto). specialize (IH s1 J E). simpl length. lia. }
    assert (I : rf_inv vs (rf_init vs)) by (apply rf_reach; exists []; reflexivity). specialize (X ls _ I E). unfold rest at 2 in X. simpl in X. lia.
  - destruct (C153_all_shown vs s R) as [_ A]. destruct (rf_reach vs s R) as (_ & H2 & H3 & H4). destruct (con s) eqn:C.
    + left. destruct (slot s) eqn:S; [exists LTake; simpl; rewrite C, S; discriminate|]. destruct (prd s) as [[|v r]|r|] eqn:P.
      * exists LStore. simpl. rewrite P. discriminate.
      * exists LStore. simpl. rewrite P, S. destruct (closed s) eqn:K; [assert (X : PGo (v :: r) = PEnd) by (apply H2; auto); discriminate|discriminate].
      * exists LReturn. simpl. rewrite P, S. discriminate.
      * exists LLeave. simpl. rewrite C, S. destruct (closed s) eqn:K; [discriminate|]. assert (X : false = true) by (apply H2; auto). discriminate.
    + right. destruct (A eq_refl). auto.
Qed.
Print Assumptions C153_ends.

Example C153_case : exists s, reachable rf_step (rf_init [1; 1; 2]%N) s /\ con s = CEnd /\ rev (shown s) = [1; 1; 2]%N.
Proof. apply (reach_by rf_step (rf_init [1; 1; 2]%N) [LStore; LTake; LReturn; LStore; LTake; LReturn; LStore; LTake; LReturn; LStore; LLeave]). vm_compute. splits; auto. Qed.
