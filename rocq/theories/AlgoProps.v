(** C47, C48, C57, C70: the scheduling algorithms. *)
From Coq Require Import List Arith Bool Lia.
From Verif Require Import Base Algo AlgoSpec AlgoFacts AlgoProofs AlgoProofs2 AlgoProofs3 AlgoProofs4.
Import ListNotations.

Section Props.
Variable pinned : nat -> bool.
Variable home : nat -> nat.
Variable kind : nat -> akind.
Variable sched : nat -> nat -> option nat.
Variable cfg : well_configured kind sched.
Variable cur0 : nat -> nat.
Variable owner0 : nat -> option nat.
Variable start : well_started cur0 owner0.
Notation step := (step pinned kind sched).
Notation reach := (reachable step (init_state pinned home cur0 owner0)).

(** ** C48. Every awakened context is handed to exactly one thread, once: it has been picked as often as awakened, or once less, and then it is in exactly one place, once. *)
Theorem C48_exactly_once s : reach s -> forall c,
  (awakes (log s) c = picks (log s) c /\ forall p, ~ stored s c p) \/
  (awakes (log s) c = S (picks (log s) c) /\ exists p, stored s c p /\ forall p', stored s c p' -> p' = p).
Proof.
  intros R c. destruct (all_reach pinned home kind sched cfg cur0 owner0 s start R) as [[pl I] _ _ _]. assert (St : forall p, stored s c p <-> pl c = Some p).
  { intros [a| |t]; simpl; [apply (i_q _ _ _ _ _ _ I)|apply (i_sh _ _ _ _ _ _ I)|]. rewrite (i_hand _ _ _ _ _ _ I). split; [auto|]. intros [H|H]; [auto|discriminate]. }
  pose proof (i_log _ _ _ _ _ _ I c) as L. pose proof (i_ready _ _ _ _ _ _ I c) as Rd. destruct (pl c) as [p|] eqn:E.
  - right. assert (H : ready s c = true) by (apply Rd; discriminate). rewrite H in L. split; [lia|]. exists p. split; [now apply St|]. intros p' H'. apply St in H'. congruence.
  - left. assert (H : ready s c = false) by (destruct (ready s c); auto; now destruct Rd as [Rd _]; destruct Rd). rewrite H in L. split; [lia|]. intros p H'. apply St in H'. discriminate.
Qed.
(** No queue holds a context twice. *)
Theorem C48_no_duplicates s : reach s -> (forall a, NoDup (q s a)) /\ NoDup (shq s).
Proof. intros R. destruct (all_reach pinned home kind sched cfg cur0 owner0 s start R) as [[pl I] _ _ _]. split; apply I. Qed.
(** No context is left in the queue of an object no thread uses any more, or in the shared queue when no thread uses shared_work. *)
Theorem C48_not_stranded s : reach s -> errs s = [] -> forall c,
  (forall a, stored s c (InQueue a) -> exists t, cur s t = a \/ installing s t a) /\
  (stored s c InShared -> exists a t, kind a = SharedWork /\ (cur s t = a \/ installing s t a)).
Proof.
  intros R E c. destruct (all_reach pinned home kind sched cfg cur0 owner0 s start R) as [_ _ A _]. destruct (A E) as [A1 A2]. split; [intros a H; apply (A1 a c H)|]. intros H. destruct (A2 c H) as (a & K & t & X). eauto.
Qed.
(** Main and dispatcher contexts are only picked by their own thread. *)
Theorem C48_pinned s : reach s -> forall t c, In (EPick t (Some c)) (log s) -> pinned c = true -> t = home c.
Proof. intros R. destruct (all_reach pinned home kind sched cfg cur0 owner0 s start R) as [[pl I] _ _ _]. apply I. Qed.
(** A context that was picked and not awakened since is attached to the thread that picked it. *)
Theorem C48_belongs s : reach s -> forall c t, awakes (log s) c = picks (log s) c -> last_pick (log s) c = Some t -> att s c = Some t.
Proof.
  intros R c t E L. destruct (all_reach pinned home kind sched cfg cur0 owner0 s start R) as [[pl I] _ _ B]. apply B; auto. pose proof (i_log _ _ _ _ _ _ I c). destruct (ready s c); auto. lia.
Qed.
(** No assertion of attach, detach, pick_next or awakened fails, no index is out of bounds. The only error is awakened( nullptr) in set_algo (see C57). *)
Theorem C48_no_error s : reach s -> (forall e, In e (errs s) -> e = NullAwakened) /\ (no_set (log s) -> errs s = []).
Proof.
  intros R. split; [apply (all_reach pinned home kind sched cfg cur0 owner0 s start R)|].
  assert (X : all pinned home kind s /\ (no_set (log s) -> errs s = [] /\ forall t b, ~ installing s t b)); [|apply X]. revert s R. apply reachable_inv.
  - split; [apply (all_reach pinned home kind sched cfg cur0 owner0); auto; apply reachable_refl|]. simpl. auto.
  - intros s l s' [A H] St. split; [eapply all_step; eauto|]. intros Ns. destruct (a_inv _ _ _ _ A) as [pl I]. assert (Ns0 : no_set (log s)). { destruct (log_grows pinned home kind sched s pl l s' I St) as [l1 E]. rewrite E in Ns. intros t b Hi. apply (Ns t b). apply in_or_app. auto. }
    destruct (H Ns0) as [E Ni]. assert (Pl : forall t, pc s t = Idle \/ pc s t = Crashed \/ exists r n, pc s t = Steal r n None).
    { intros t. specialize (Ni t). unfold installing in Ni. destruct (pc s t) as [|r n [b|]|b|b|b c|]; eauto; exfalso; apply (Ni b); auto. }
    destruct l as [t c|t c|t|t d|t b|t].
    + simpl in St. destruct (pc s t); try discriminate. destruct (att s c); [discriminate|]. destruct (_ || _); [discriminate|]. injection St as <-. auto.
    + simpl in St. destruct (pc s t) eqn:P; try discriminate. destruct (att s c) as [t'|] eqn:At; [|discriminate]. destruct (_ && _) eqn:B; [|discriminate]. injection St as <-.
      assert (St : step s (Awake t c) = Some (awakened pinned kind (with_log (with_ready s c true) (EAwake t c)) t (cur s t) c)) by (simpl; now rewrite P, At, B).
      destruct (inv_step pinned home kind sched cfg s pl _ _ I St) as (pl' & I' & On). destruct (step_effect pinned home kind sched s pl _ _ I St) as [Fp _ _ _ _ _ _].
      destruct (awakened_effect pinned kind (with_log (with_ready s c true) (EAwake t c)) t (cur s t) c) as (_ & _ & _ & _ & _ & _ & A7); [left; simpl; now updt|]. simpl in A7.
      assert (E' : errs (awakened pinned kind (with_log (with_ready s c true) (EAwake t c)) t (cur s t) c) = errs s).
      { destruct On as [X|X]; auto. exfalso. revert X. unfold awakened. destruct (kind (cur s t)); repeat match goal with |- context [if ?x then _ else _] => destruct x end; simpl; try discriminate; intros X; symmetry in X; revert X; apply neq_cons. }
      split; [congruence|]. intros t0 b0 Hi. apply (Ni t0 b0). destruct (Nat.eq_dec t0 t) as [->|Nt]; unfold installing in *; [destruct A7 as [A7|A7]; [now rewrite A7 in Hi|congruence]|]. now rewrite Fp in Hi.
    + simpl in St. destruct (pc s t) eqn:P; try discriminate. injection St as <-. assert (St : step s (Pick t) = Some (pick_next pinned kind s t (cur s t) None)) by (simpl; now rewrite P).
      destruct (inv_step pinned home kind sched cfg s pl _ _ I St) as (pl' & I' & On). destruct (step_effect pinned home kind sched s pl _ _ I St) as [Fp _ _ _ _ _ _].
      assert (E' : errs (pick_next pinned kind s t (cur s t) None) = errs s /\ forall b, ~ installing (pick_next pinned kind s t (cur s t) None) t b).
      { assert (Fi : forall s0 o, errs (finish s0 t None o) = errs s0 /\ forall b, ~ installing (finish s0 t None o) t b) by (intros s0 [o|]; split; auto; intros b Hb; unfold installing in Hb; simpl in Hb; now updt).
        destruct On as [X|X].
        - split; auto. clear - X Fi E. revert X. unfold pick_next, attach_finish. intros X b. destruct (kind (cur s t)); [destruct (q s (cur s t)) eqn:Eq|destruct (shq s) eqn:Es; [destruct (q s (cur s t)) eqn:Eq|]|destruct (q s (cur s t)) eqn:Eq]; repeat match goal with |- context [if ?x then _ else _] => destruct x end; try apply Fi; intros Hb; unfold installing in Hb; simpl in Hb; now updt.
        - exfalso. revert X. unfold pick_next, attach_finish. destruct (kind (cur s t)); [destruct (q s (cur s t)) eqn:Eq|destruct (shq s) eqn:Es; [destruct (q s (cur s t)) eqn:Eq|]|destruct (q s (cur s t)) eqn:Eq]; repeat match goal with |- context [if ?x then _ else _] => destruct x end; simpl; rewrite ?E; discriminate. }
      destruct E' as [E1 E2]. split; [congruence|]. intros t0 b0 Hi. destruct (Nat.eq_dec t0 t) as [->|Nt]; [now apply (E2 b0)|]. apply (Ni t0 b0). unfold installing in *. now rewrite Fp in Hi.
    + assert (St0 := St). simpl in St. destruct (pc s t) as [|r n k| | | |] eqn:P; try discriminate. assert (k = None). { destruct k as [b|]; auto. exfalso. apply (Ni t b). unfold installing. now rewrite P. } subst k.
      destruct (step_effect pinned home kind sched s pl _ _ I St0) as [Fp _ _ _ _ _ _]. pose proof (draw_pc pinned home kind sched cfg s t d s' r n A P St) as Dp.
      split; [|intros t0 b0 Hi; destruct (Nat.eq_dec t0 t) as [->|Nt]; [unfold installing in Hi; destruct Dp as [->|(r' & n' & ->)] in Hi; auto|apply (Ni t0 b0); unfold installing in *; now rewrite Fp in Hi]].
      destruct (inv_step pinned home kind sched cfg s pl _ _ I St0) as (pl' & I' & [X|X]); [congruence|]. exfalso.
      (* an error leaves the thread in Crashed *)
      assert (Cr : pc s' t = Crashed). { clear - St X. unfold draw in St. destruct (kind (cur s t)); try discriminate. assert (Ne : forall s0, errs s0 = errs s -> Some s0 = Some s' -> pc s' t = Crashed). { intros s0 E0 E1. injection E1 as ->. rewrite E0 in X. symmetry in X. exfalso. revert X. apply neq_cons. }
        assert (Nw : forall s0 e, Some (with_err s0 t e) = Some s' -> pc s' t = Crashed) by (intros s0 e E1; injection E1 as <-; simpl; now updt).
        destruct (nth_error _ _) as [i|]; [destruct (i =? own); [destruct r; [eapply Nw; eauto|eapply Ne; [|eauto]; reflexivity]|]|destruct (if r then remote else local); [eapply Nw; eauto|discriminate]]. destruct (sched (cur s t) i) as [v|]; [|eapply Nw; eauto].
        unfold steal in St. destruct (q s v) as [|y ll]; [|destruct (pinned y) eqn:Py; [|rewrite Py in St; unfold attach_finish in St; match type of St with context [if ?x then _ else _] => destruct x end; [eapply Ne; [|eauto]; reflexivity|eapply Nw; eauto]]].
        all: destruct (S n <? _); [eapply Ne; [|eauto]; reflexivity|]; destruct (negb r && _); (eapply Ne; [|eauto]; reflexivity). }
      rewrite Cr in Dp. destruct Dp as [Dp|(r' & n' & Dp)]; discriminate.
    + exfalso. simpl in St. destruct (pc s t); try discriminate. destruct (owner s b); [discriminate|]. injection St as <-. apply (Ns t b). now left.
    + exfalso. simpl in St. destruct (Pl t) as [P|[P|(r & n & P)]]; rewrite P in St; discriminate.
Qed.
(** When all threads use shared_work: workers are handed out in the order in which they became ready, whichever thread asks; main and dispatcher contexts when no worker is ready; nullptr only when the thread has nothing to run. *)
Theorem C48_shared_work s : reach s -> (forall t, kind (cur0 t) = SharedWork) -> no_set (log s) ->
  forall l1 t o l2, log s = l1 ++ EPick t o :: l2 -> shared_next pinned l2 t o.
Proof. intros R K N. apply (h_next _ _ _ (shared_reach pinned home kind sched cfg cur0 owner0 s start K R N)). Qed.

(** ** C47. With no other CPU in the list of local CPUs, the search for a victim never ends, whatever the other threads do. *)
Theorem C47_forever s t n k own loc remote : reach s -> pc s t = Steal false n k -> kind (cur s t) = Stealing own loc remote -> (forall i, In i loc -> i = own) ->
  forall ls s', exec step s ls = Some s' -> searching s' t /\ forall o, In (EPick t o) (log s') -> In (EPick t o) (log s).
Proof.
  intros R P K H ls s' E. destruct (stuck_exec pinned home kind sched cfg ls s s' t n k own loc remote (all_reach pinned home kind sched cfg cur0 owner0 s start R) E P K H) as [[n' X] Y]. split; auto. unfold searching. now rewrite X.
Qed.
(** Else it ends: it makes at most as many rounds with another scheduler as there are CPUs in the lists, under any interference of other threads, ... *)
Theorem C47_returns_partial s s' t k own loc remote ls : reach s -> pc s t = Steal false 0 k -> kind (cur s t) = Stealing own loc remote ->
  exec step s ls = Some s' -> length loc + length remote <= tries pinned kind sched s t ls ->
  exists ls1 ls2 s1, ls = ls1 ++ ls2 /\ exec step s ls1 = Some s1 /\ ~ searching s1 t.
Proof.
  intros R P K E H. assert (A := all_reach pinned home kind sched cfg cur0 owner0 s start R). assert (Se : searching s t) by (unfold searching; now rewrite P).
  destruct (searching_dec s' t) as [X|X]; [|exists ls, [], s'; rewrite app_nil_r; auto]. assert (A' : all pinned home kind s'). { destruct R as [l0 R]. apply (all_reach pinned home kind sched cfg cur0 owner0 s' start). exists (l0 ++ ls). apply exec_app. eauto. }
  apply (left_exec pinned home kind sched cfg ls s s' t A E Se). pose proof (left_pos pinned home kind s' t A' X). unfold left at 1. rewrite P, K. destruct (cfg _ _ _ _ K) as [Ln _]. destruct loc; [congruence|]. cbn [length] in *. lia.
Qed.
(** ... and such a round is possible in every state, if there is another local CPU: from every state of the search, a few draws end it. *)
Theorem C47_can_return_partial s t : reach s -> searching s t -> (forall own loc remote, kind (cur s t) = Stealing own loc remote -> exists i, In i loc /\ i <> own) ->
  exists ds s', exec step s (map (Draw t) ds) = Some s' /\ ~ searching s' t.
Proof. intros R Se H. destruct (can_return pinned home kind sched cfg _ s t (all_reach pinned home kind sched cfg cur0 owner0 s start R) Se (le_n _) H) as (ds & s' & _ & X). eauto. Qed.

(** ** C57. If no other thread interferes, and not both algorithms are shared_work, set_algo moves all ready contexts of the old algorithm to the new one, in order, and returns after 3 steps for each. *)
Theorem C57_moved_partial s t b : reach s -> pc s t = Idle -> owner s b = None -> sw kind (cur s t) && sw kind b = false ->
  let l := order kind s (cur s t) in
  exists s', exec step s (SetAlgo t b :: repeat (Tick t) (3 * length l + 1)) = Some s' /\ pc s' t = Idle /\ cur s' t = b /\ errs s' = errs s /\ order kind s' (cur s t) = [] /\
    (if sw kind b then shq s' = shq s ++ filter (fun c => negb (pinned c)) l /\ q s' b = filter pinned l else q s' b = l) /\
    (sw kind b = false -> sw kind (cur s t) = false -> shq s' = shq s) /\
    (forall x, x <> cur s t -> x <> b -> q s' x = q s x) /\ log s' = ESetDone t b :: ESet t b :: log s.
Proof.
  intros R P Ob N l. assert (A := all_reach pinned home kind sched cfg cur0 owner0 s start R). destruct (a_inv _ _ _ _ A) as [pl I].
  assert (Qb : q s b = []). { destruct (q s b) as [|c r] eqn:E; auto. exfalso. assert (X : pl c = Some (InQueue b)) by (apply (i_q _ _ _ _ _ _ I); rewrite E; now left). apply (i_pl _ _ _ _ _ _ I) in X. destruct X as (t0 & X & _). congruence. }
  cbn [exec]. destruct (step s (SetAlgo t b)) as [s1|] eqn:St; [|simpl in St; rewrite P, Ob in St; discriminate]. assert (A1 := all_step _ _ _ _ cfg _ _ _ A St). assert (E1 := St). simpl in E1. rewrite P, Ob in E1. injection E1 as E1.
  assert (F : q s1 = q s /\ shq s1 = shq s /\ cur s1 = cur s /\ pc s1 t = SetTest b /\ errs s1 = errs s /\ log s1 = ESet t b :: log s) by (subst s1; simpl; updt; splits; auto). destruct F as (Fq & Fs & Fc & Fp & Fe & Fl).
  destruct (move_all pinned home kind sched cfg l s1 t b A1 Fp) as (s2 & E2 & P2 & C2 & O2 & Er2 & L2 & Q2 & Qb2 & S2); [unfold l, order; now rewrite Fc, Fq, Fs|rewrite Fc; auto|]. rewrite Fc, Fq, Fs in *. exists s2. splits; auto; try congruence.
  - rewrite C2. now updt.
  - rewrite Qb in Qb2. simpl in Qb2. destruct (sw kind b); simpl in *.
    + split; [apply S2; now rewrite andb_true_r in N|]. rewrite Qb2. apply filter_ext. intros c. now rewrite negb_involutive.
    + rewrite Qb2. clear. induction l; simpl; congruence.
  - intros H1 H2. rewrite S2, H1 by auto. simpl. clear. induction l; simpl; auto. rewrite app_nil_r. auto.
Qed.
(** If the old algorithm is round_robin (the default), this needs no such hypothesis: after so many steps of its own the thread is done, whatever the other threads do in between. That nothing is lost meanwhile is C48. *)
Theorem C57_round_robin s s' t b ls : reach s -> pc s t = Idle -> kind (cur s t) = RoundRobin -> exec step s (SetAlgo t b :: ls) = Some s' -> 3 * length (q s (cur s t)) + 1 <= ticks t ls ->
  exists ls1 ls2 s1 s2, ls = ls1 ++ Tick t :: ls2 /\ exec step s (SetAlgo t b :: ls1) = Some s1 /\ step s1 (Tick t) = Some s2 /\ log s2 = ESetDone t b :: log s1 /\ cur s2 t = b /\ pc s2 t = Idle.
Proof.
  intros R P K E H. assert (A := all_reach pinned home kind sched cfg cur0 owner0 s start R). cbn [exec] in E. destruct (step s (SetAlgo t b)) as [s1|] eqn:St; [|discriminate]. assert (A1 := all_step _ _ _ _ cfg _ _ _ A St).
  assert (F : q s1 = q s /\ cur s1 = cur s /\ pc s1 t = SetTest b). { simpl in St. rewrite P in St. destruct (owner s b); [discriminate|]. injection St as <-. simpl. updt. splits; auto. } destruct F as (Fq & Fc & Fp).
  destruct (replacing_exec pinned home kind sched cfg ls s1 s' t (cur s t) b A1 E) as (l1 & l2 & s2 & s3 & -> & E2 & X).
  - unfold replacing. rewrite Fc. auto.
  - unfold todo. rewrite Fc, Fq, Fp. auto.
  - lia.
  - exists l1, l2, s2, s3. splits; try apply X; auto. cbn [exec]. now rewrite St.
Qed.
(** shared_work replaced by shared_work, while a worker is in the shared queue: set_algo takes from the queue and puts back what it takes, forever. *)
Theorem C57_forever s t b : reach s -> pc s t = Idle -> owner s b = None -> sw kind (cur s t) = true -> sw kind b = true -> shq s <> [] ->
  forall n, exists s', exec step s (SetAlgo t b :: repeat (Tick t) n) = Some s' /\ pc s' t <> Idle /\ cur s' t = cur s t /\ log s' = ESet t b :: log s.
Proof.
  intros R P Ob K1 K2 Sh n. assert (A := all_reach pinned home kind sched cfg cur0 owner0 s start R). cbn [exec]. destruct (step s (SetAlgo t b)) as [s1|] eqn:St; [|simpl in St; rewrite P, Ob in St; discriminate]. assert (A1 := all_step _ _ _ _ cfg _ _ _ A St).
  assert (F : shq s1 = shq s /\ cur s1 = cur s /\ pc s1 t = SetTest b /\ log s1 = ESet t b :: log s). { simpl in St. rewrite P, Ob in St. injection St as <-. simpl. updt. splits; auto. } destruct F as (Fs & Fc & Fp & Fl).
  destruct (spin_exec pinned home kind sched cfg n s1 t (cur s t) b A1) as (s2 & E & Sp & L).
  - unfold spinning. rewrite Fc, Fs. splits; auto.
  - exists s2. destruct Sp as (_ & _ & C & D). splits; auto; [|congruence]. destruct D as [[[D|D] _]|(c & D & _)]; rewrite D; discriminate.
Qed.

(** ** C70. A ready main or dispatcher context gets its turn, if the algorithm of its thread is round_robin or work_stealing: after as many calls of pick_next as there are contexts before it, plus one. *)
Theorem C70_turn_partial s s' t c i ls : reach s -> pinned c = true -> sw kind (cur s t) = false -> pc s t = Idle -> nth_error (q s (cur s t)) i = Some c ->
  exec step s ls = Some s' -> (forall b, ~ In (SetAlgo t b) ls) -> i < calls t ls -> In (EPick t (Some c)) (log s').
Proof.
  intros R Pn Sw P Nt E Ns H. apply (waiting_exec pinned home kind sched cfg ls s s' t c i); auto; [apply (all_reach pinned home kind sched cfg cur0 owner0 s start R)|].
  apply nth_error_split in Nt. destruct Nt as (l1 & l2 & Q & L). exists l1, l2. split; auto. lia.
Qed.
End Props.

(** ** Examples and refutations. Contexts below 10 are pinned: 2t is the main context of thread t, 2t+1 its dispatcher. Thread t begins with object 2t; odd objects are new ones. *)
Definition pin (c : nat) : bool := c <? 10.
Definition half (c : nat) : nat := Nat.div2 c.
Definition own2 (a : nat) : option nat := if Nat.even a then Some (Nat.div2 a) else None.
Notation double := (fun t => 2 * t).
Lemma start2 : well_started double own2.
Proof. intros t. unfold own2. replace (Nat.even (2 * t)) with true by (symmetry; apply Nat.even_spec; now exists t). now rewrite Nat.div2_double. Qed.
Lemma ran pinned home kind sched ls (P : st -> Prop) : match exec (step pinned kind sched) (init_state pinned home double own2) ls with Some s => P s | None => False end ->
  exists s, exec (step pinned kind sched) (init_state pinned home double own2) ls = Some s /\ P s.
Proof. destruct (exec _ _ ls) as [s|]; [eauto|tauto]. Qed.

(** Threads 0, 1, 2, 3 run round_robin, shared_work, work_stealing, work_stealing. Object 9 is another shared_work. *)
Definition mixed (a : nat) : akind := if a =? 4 then plain 0 2 else if a =? 6 then plain 1 2 else if (a =? 2) || (a =? 9) then SharedWork else RoundRobin.
Definition at4 (_ i : nat) : option nat := if i <? 2 then Some (4 + 2 * i) else None.
Lemma mixed_ok : well_configured mixed at4.
Proof.
  intros a own loc remote. unfold mixed, plain. destruct (a =? 4) eqn:E4; [|destruct (a =? 6) eqn:E6; [|destruct ((a =? 2) || (a =? 9)); discriminate]]; intros E; injection E as <- <- <-; split; [discriminate| |discriminate|]; (split; [auto|]); intros i [<-|[<-|[]]]; eexists; split; reflexivity.
Qed.
Definition mix : list label := [Start 2 10; Awake 2 10; Pick 3; Draw 3 1; Draw 3 0; Awake 3 6; Awake 3 10; Pick 3; Pick 3;
  Start 1 11; Awake 1 2; Awake 1 11; Pick 1; Pick 1; Pick 1; Start 0 12; Awake 0 12; Awake 0 0].
(** Context 10 becomes ready in thread 2, is stolen by thread 3 (which drew itself first) and attached there; the worker 11 overtakes the main context 2; 12 and 0 are ready at the end. *)
Example C48_ex : exists s, exec (step pin mixed at4) (init_state pin half double own2) mix = Some s /\ errs s = [] /\ no_set (log s) /\ stored s 12 (InQueue 0) /\ last_pick (log s) 10 = Some 3 /\
  rev (log s) = [EAwake 2 10; EPick 3 (Some 10); EAwake 3 6; EAwake 3 10; EPick 3 (Some 6); EPick 3 (Some 10); EAwake 1 2; EAwake 1 11; EPick 1 (Some 11); EPick 1 (Some 2); EPick 1 None; EAwake 0 12; EAwake 0 0].
Proof. apply ran. vm_compute. splits; auto. intros t b H. repeat (destruct H as [H|H]; [discriminate|]). exact H. Qed.
Example C48_shared_work_ex : exists s, exec (step pin (fun _ => SharedWork) at4) (init_state pin half double own2)
    [Start 0 10; Start 0 11; Awake 0 0; Awake 0 10; Awake 0 11; Pick 1; Pick 0; Pick 0; Awake 1 10; Pick 1] = Some s /\ no_set (log s) /\
  rev (log s) = [EAwake 0 0; EAwake 0 10; EAwake 0 11; EPick 1 (Some 10); EPick 0 (Some 11); EPick 0 (Some 0); EAwake 1 10; EPick 1 (Some 10)].
Proof. apply ran. vm_compute. splits; auto. intros t b H. repeat (destruct H as [H|H]; [discriminate|]). exact H. Qed.

(** C47: algo::work_stealing with thread_count = 1. *)
Definition single (a : nat) : akind := if a =? 0 then plain 0 1 else RoundRobin.
Lemma single_ok : well_configured single (fun _ _ => Some 0).
Proof. intros a own loc remote. unfold single, plain. destruct (a =? 0); [|discriminate]. injection 1 as <- <- <-. split; [discriminate|]. split; [auto|]. intros i [<-|[]]. now exists 0. Qed.
Theorem C47_refuted : exists s, exec (step pin single (fun _ _ => Some 0)) (init_state pin half double own2) [Pick 0] = Some s /\
  forall ls s', exec (step pin single (fun _ _ => Some 0)) s ls = Some s' -> searching s' 0 /\ forall o, ~ In (EPick 0 o) (log s').
Proof.
  destruct (ran pin half single (fun _ _ => Some 0) [Pick 0] (fun s => pc s 0 = Steal false 0 None /\ cur s 0 = 0 /\ log s = [])) as (s & E & P & C & L); [vm_compute; auto|]. exists s. split; auto. intros ls s' E'.
  destruct (C47_forever pin half single (fun _ _ => Some 0) single_ok double own2 start2 s 0 0 None 0 [0] []) with (ls := ls) (s' := s') as [X Y]; auto; [now exists [Pick 0]|now rewrite C|simpl; intuition|]. split; auto. intros o H. apply Y in H. now rewrite L in H.
Qed.
(** C47: numa::algo::work_stealing on a node with one CPU, while there are other nodes, and a ready context it could take from them. *)
Definition nodes (a : nat) : akind := if a =? 0 then Stealing 0 [0] [1; 2] else if a =? 2 then Stealing 1 [1; 2] [0] else if a =? 4 then Stealing 2 [1; 2] [0] else RoundRobin.
Definition at2 (_ i : nat) : option nat := if i <? 3 then Some (2 * i) else None.
Lemma nodes_ok : well_configured nodes at2.
Proof.
  intros a own loc remote. unfold nodes. repeat match goal with |- context [if ?x then _ else _] => destruct x end; try discriminate; injection 1 as <- <- <-; (split; [discriminate|]); (split; [simpl; intuition discriminate|]); intros i H; simpl in H; repeat (destruct H as [<-|H]; [eexists; split; reflexivity|]); destruct H.
Qed.
Theorem C47_refuted_numa : exists s, exec (step pin nodes at2) (init_state pin half double own2) [Start 1 10; Awake 1 10; Pick 0] = Some s /\ q s 2 = [10] /\
  forall ls s', exec (step pin nodes at2) s ls = Some s' -> searching s' 0 /\ forall o, ~ In (EPick 0 o) (log s').
Proof.
  destruct (ran pin half nodes at2 [Start 1 10; Awake 1 10; Pick 0] (fun s => pc s 0 = Steal false 0 None /\ cur s 0 = 0 /\ q s 2 = [10] /\ log s = [EAwake 1 10])) as (s & E & P & C & Q & L); [vm_compute; auto|]. exists s. split; auto. split; auto. intros ls s' E'.
  destruct (C47_forever pin half nodes at2 nodes_ok double own2 start2 s 0 0 None 0 [0] [1; 2]) with (ls := ls) (s' := s') as [X Y]; auto; [eexists; exact E|now rewrite C|simpl; intuition|]. split; auto. intros o H. apply Y in H. rewrite L in H. destruct H as [H|[]]. discriminate.
Qed.
(** On a node with two CPUs: two rounds with the other local CPU, one with the remote CPU; own draws do not count for the bound. *)
Example C47_returns_ex : exists s, exec (step pin nodes at2) (init_state pin half double own2) [Pick 1] = Some s /\ pc s 1 = Steal false 0 None /\
  exists s', exec (step pin nodes at2) s [Draw 1 1; Draw 1 1; Draw 1 0] = Some s' /\ tries pin nodes at2 s 1 [Draw 1 1; Draw 1 1; Draw 1 0] = 3 /\ log s' = [EPick 1 None].
Proof. apply ran. vm_compute. split; auto. eexists. splits; reflexivity. Qed.

(** C57: round_robin replaced by shared_work and the other way round. *)
Example C57_moved_ex : exists s, exec (step pin mixed at4) (init_state pin half double own2) [Start 0 12; Start 0 13; Awake 0 12; Awake 0 0; Awake 0 13] = Some s /\ pc s 0 = Idle /\ own2 9 = None /\ owner s 9 = None /\
  sw mixed (cur s 0) && sw mixed 9 = false /\ order mixed s (cur s 0) = [12; 0; 13] /\
  exists s', exec (step pin mixed at4) s (SetAlgo 0 9 :: repeat (Tick 0) 10) = Some s' /\ shq s' = [12; 13] /\ q s' 9 = [0] /\ cur s' 0 = 9.
Proof. apply ran. vm_compute. splits; auto. eexists. splits; reflexivity. Qed.
(** While 12 is moved from round_robin to shared_work, thread 1 takes it out of the shared queue. *)
Example C57_round_robin_ex : exists s, exec (step pin mixed at4) (init_state pin half double own2) [Start 0 12; Awake 0 12; Awake 0 0] = Some s /\ pc s 0 = Idle /\ mixed (cur s 0) = RoundRobin /\ length (q s (cur s 0)) = 2 /\
  exists s', exec (step pin mixed at4) s (SetAlgo 0 9 :: [Tick 0; Tick 0; Tick 0; Pick 1; Tick 0; Tick 0; Awake 1 12; Tick 0; Tick 0]) = Some s' /\ log s' = ESetDone 0 9 :: EAwake 1 12 :: EPick 1 (Some 12) :: ESet 0 9 :: log s.
Proof. apply ran. vm_compute. splits; auto. eexists. splits; reflexivity. Qed.
(** Two threads with shared_work; thread 0 installs another shared_work object while a worker is ready. *)
Theorem C57_refuted_forever : exists s, exec (step pin (fun _ => SharedWork) at4) (init_state pin half double own2) [Start 0 10; Awake 0 10; SetAlgo 0 1] = Some s /\ errs s = [] /\
  forall n, exists s', exec (step pin (fun _ => SharedWork) at4) s (repeat (Tick 0) n) = Some s' /\ cur s' 0 = 0 /\ ~ In (ESetDone 0 1) (log s').
Proof.
  assert (W : well_configured (fun _ => SharedWork) at4) by (intros a own loc remote; discriminate).
  destruct (ran pin half (fun _ => SharedWork) at4 [Start 0 10; Awake 0 10] (fun s => pc s 0 = Idle /\ owner s 1 = None /\ cur s 0 = 0 /\ shq s = [10] /\ errs s = [] /\ log s = [EAwake 0 10])) as (s & E & P & O & C & Q & Er & L); [vm_compute; splits; auto|].
  assert (X := C57_forever pin half (fun _ => SharedWork) at4 W double own2 start2 s 0 1 (ex_intro _ _ E) P O eq_refl eq_refl). rewrite Q in X. specialize (X ltac:(discriminate)).
  cbn [exec] in X. destruct (step pin (fun _ => SharedWork) at4 s (SetAlgo 0 1)) as [s1|] eqn:St; [|destruct (X 0) as (? & ? & _); discriminate].
  exists s1. split; [change [Start 0 10; Awake 0 10; SetAlgo 0 1] with ([Start 0 10; Awake 0 10] ++ [SetAlgo 0 1]); apply exec_app; exists s; split; auto; cbn [exec]; now rewrite St|]. split; [simpl in St; rewrite P, O in St; now injection St as <-|].
  intros n. destruct (X n) as (s' & E' & _ & C' & L'). exists s'. splits; auto; [congruence|]. rewrite L', L. intros [H|[H|[]]]; discriminate.
Qed.
(** Thread 2 replaces work_stealing; between the test has_ready_fibers() and pick_next() thread 3 steals the only ready context. *)
Theorem C57_refuted_null_stealing : exists s, exec (step pin mixed at4) (init_state pin half double own2)
    [Start 2 10; Awake 2 10; SetAlgo 2 1; Tick 2; Pick 3; Draw 3 0; Tick 2; Draw 2 1; Draw 2 1] = Some s /\ errs s = [NullAwakened] /\ pc s 2 = Crashed.
Proof. apply ran. vm_compute. auto. Qed.
(** Thread 0 replaces shared_work; in between thread 1 takes the only ready context. *)
Theorem C57_refuted_null_shared : exists s, exec (step pin (fun a => if a =? 1 then RoundRobin else SharedWork) at4) (init_state pin half double own2)
    [Start 0 10; Awake 0 10; SetAlgo 0 1; Tick 0; Pick 1; Tick 0] = Some s /\ errs s = [NullAwakened] /\ pc s 0 = Crashed.
Proof. apply ran. vm_compute. auto. Qed.

(** C70: one thread with shared_work, two workers that only call yield() (which calls pick_next() first and awakened() for the yielding context after the switch, scheduler.cpp:307, context.cpp:93). The main and the dispatcher context are ready all the time and never run. *)
Definition turn : list label := [Pick 0; Awake 0 10; Pick 0; Awake 0 11].
Definition yielding (s : st) : Prop := pc s 0 = Idle /\ cur s 0 = 0 /\ shq s = [11] /\ ready s 10 = false /\ ready s 11 = true /\ att s 10 = Some 0 /\ att s 11 = None /\ linked s 10 = false /\ linked s 11 = false.
Lemma pick_shared s c l : pc s 0 = Idle -> shq s = c :: l -> att s c = None -> linked s c = false -> step pin (fun _ => SharedWork) at4 s (Pick 0) =
  Some (mkSt (q s) l (cur s) (owner s) (upd (att s) c (Some 0)) (linked s) (upd (ready s) c false) (upd (pc s) 0 Idle) (errs s) (EPick 0 (Some c) :: log s)).
Proof. intros P Sh A L. cbn [step]. rewrite P. unfold pick_next. rewrite Sh. unfold attach_finish, can_attach. cbn [att linked]. now rewrite A, L. Qed.
Lemma awake_shared s c : pc s 0 = Idle -> pin c = false -> att s c = Some 0 -> linked s c = false -> ready s c = false -> step pin (fun _ => SharedWork) at4 s (Awake 0 c) =
  Some (mkSt (q s) (shq s ++ [c]) (cur s) (owner s) (upd (att s) c None) (linked s) (upd (ready s) c true) (pc s) (errs s) (EAwake 0 c :: log s)).
Proof. intros P Pn A L R. cbn [step]. rewrite P, A, R. cbn [negb andb Nat.eqb]. unfold awakened, can_detach. cbn [att linked with_log with_ready]. now rewrite Pn, A, L. Qed.
Lemma turn_exec s : yielding s -> exists s', exec (step pin (fun _ => SharedWork) at4) s turn = Some s' /\ yielding s' /\ q s' = q s /\ errs s' = errs s /\
  log s' = EAwake 0 11 :: EPick 0 (Some 10) :: EAwake 0 10 :: EPick 0 (Some 11) :: log s.
Proof.
  intros (P & C & Sh & R10 & R11 & A10 & A11 & L10 & L11). unfold turn. cbn [exec]. rewrite (pick_shared s 11 []) by auto. rewrite awake_shared by (cbn; auto). rewrite (pick_shared _ 10 []) by (cbn; auto). rewrite awake_shared by (cbn; auto).
  eexists. split; [reflexivity|]. unfold yielding. cbn. splits; auto.
Qed.
Lemma turns_exec n : forall s, yielding s -> exists s', exec (step pin (fun _ => SharedWork) at4) s (concat (repeat turn n)) = Some s' /\ yielding s' /\ q s' = q s /\ errs s' = errs s /\
  picks (log s') 0 = picks (log s) 0 /\ picks (log s') 1 = picks (log s) 1 /\ picks (log s') 10 = n + picks (log s) 10 /\ picks (log s') 11 = n + picks (log s) 11.
Proof.
  induction n as [|n IH]; intros s Y; [exists s; splits; auto|]. destruct (turn_exec s Y) as (s1 & E1 & Y1 & Q1 & Er1 & L1). destruct (IH s1 Y1) as (s' & E' & Y' & Q' & Er' & X0 & X1 & X2 & X3). exists s'. cbn [repeat concat].
  split; [apply exec_app; eauto|]. rewrite L1 in *. cbn [picks Nat.eqb Nat.add] in *. splits; auto; try congruence; lia.
Qed.
Theorem C70_refuted : forall n, exists s, exec (step pin (fun _ => SharedWork) at4) (init_state pin half double own2)
    ([Start 0 10; Start 0 11; Awake 0 0; Awake 0 1; Awake 0 10; Awake 0 11; Pick 0] ++ concat (repeat turn n)) = Some s /\
  errs s = [] /\ q s 0 = [0; 1] /\ picks (log s) 0 = 0 /\ picks (log s) 1 = 0 /\ picks (log s) 10 = S n /\ picks (log s) 11 = n.
Proof.
  intros n. destruct (ran pin half (fun _ => SharedWork) at4 [Start 0 10; Start 0 11; Awake 0 0; Awake 0 1; Awake 0 10; Awake 0 11; Pick 0] (fun s => yielding s /\ errs s = [] /\ q s 0 = [0; 1] /\ picks (log s) 0 = 0 /\ picks (log s) 1 = 0 /\ picks (log s) 10 = 1 /\ picks (log s) 11 = 0)) as (s & E & Y & Er & Q & X0 & X1 & X2 & X3); [vm_compute; splits; auto|].
  destruct (turns_exec n s Y) as (s' & E' & _ & Q' & Er' & Z0 & Z1 & Z2 & Z3). exists s'. split; [apply exec_app; eauto|]. splits; try congruence; lia.
Qed.
(** With round_robin the dispatcher (context 1), third in the queue, runs with the third call. *)
Example C70_turn_ex : exists s, exec (step pin mixed at4) (init_state pin half double own2) [Start 0 10; Start 0 11; Awake 0 10; Awake 0 11; Awake 0 1] = Some s /\ sw mixed (cur s 0) = false /\ pc s 0 = Idle /\ nth_error (q s (cur s 0)) 2 = Some 1 /\
  exists s', exec (step pin mixed at4) s [Pick 0; Pick 0; Awake 0 10; Pick 0] = Some s' /\ calls 0 [Pick 0; Pick 0; Awake 0 10; Pick 0] = 3 /\ log s' = EPick 0 (Some 1) :: EAwake 0 10 :: EPick 0 (Some 11) :: EPick 0 (Some 10) :: log s.
Proof. apply ran. vm_compute. splits; auto. eexists. splits; reflexivity. Qed.

Print Assumptions C48_exactly_once.
Print Assumptions C48_no_duplicates.
Print Assumptions C48_not_stranded.
Print Assumptions C48_pinned.
Print Assumptions C48_belongs.
Print Assumptions C48_no_error.
Print Assumptions C48_shared_work.
Print Assumptions C47_forever.
Print Assumptions C47_refuted.
Print Assumptions C47_refuted_numa.
Print Assumptions C47_returns_partial.
Print Assumptions C47_can_return_partial.
Print Assumptions C57_moved_partial.
Print Assumptions C57_round_robin.
Print Assumptions C57_forever.
Print Assumptions C57_refuted_forever.
Print Assumptions C57_refuted_null_stealing.
Print Assumptions C57_refuted_null_shared.
Print Assumptions C70_turn_partial.
Print Assumptions C70_refuted.
