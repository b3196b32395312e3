(** shared_work on all threads; turns of pinned contexts. *)
From Coq Require Import List Arith Bool Lia.
From Verif Require Import Base Algo AlgoSpec AlgoFacts AlgoProofs AlgoProofs2 AlgoProofs3.
Import ListNotations.

Section Facts.
Variable pinned : nat -> bool.
Variable home : nat -> nat.
Variable kind : nat -> akind.
Variable sched : nat -> nat -> option nat.
Variable cfg : well_configured kind sched.
Notation step := (step pinned kind sched).
Notation inv := (inv pinned home kind).
Notation all := (all pinned home kind).
Definition worker (c : nat) : bool := negb (pinned c).

Record shared (s : st) : Prop := mkSh {
  h_kind : forall t, kind (cur s t) = SharedWork;
  h_pc : forall t, pc s t = Idle;
  h_work : awoken worker any (log s) = picked worker any (log s) ++ shq s;
  h_pin : forall t, awoken pinned (Nat.eqb t) (log s) = picked pinned (Nat.eqb t) (log s) ++ q s (cur s t);
  h_next : forall l1 t o l2, log s = l1 ++ EPick t o :: l2 -> shared_next pinned l2 t o
}.
Lemma no_set_cons e lg : no_set (e :: lg) -> no_set lg.
Proof. intros H t b X. apply (H t b). now right. Qed.
Lemma next_cons e lg (P : list event -> nat -> option nat -> Prop) : (forall t o, e = EPick t o -> P lg t o) -> (forall l1 t o l2, lg = l1 ++ EPick t o :: l2 -> P l2 t o) -> forall l1 t o l2, e :: lg = l1 ++ EPick t o :: l2 -> P l2 t o.
Proof. intros H1 H2 [|x l1] t o l2 E; simpl in E; injection E as E1 E2; subst; eauto. Qed.

Lemma shared_step s l s' : all s -> shared s -> no_set (log s') -> step s l = Some s' -> shared s'.
Proof.
  intros A [Hk Hp Hw Hn Hx] Ns St. destruct (a_inv _ _ _ _ A) as [pl I].
  assert (Inj : forall t t', cur s t = cur s t' -> t = t') by (intros t t' E; pose proof (i_cur _ _ _ _ _ _ I t) as O1; pose proof (i_cur _ _ _ _ _ _ I t') as O2; congruence).
  destruct l as [t c|t c|t|t d|t b|t]; simpl in St; rewrite Hp in St; try discriminate.
  - destruct (att s c); [discriminate|]. destruct (_ || _); [discriminate|]. injection St as <-. constructor; auto.
  - destruct (att s c) as [t'|] eqn:At; [|discriminate]. destruct (Nat.eqb_spec t t') as [<-|]; [|discriminate]. destruct (ready s c) eqn:Rd; [discriminate|]. injection St as <-.
    assert (L : linked s c = false). { destruct (linked s c) eqn:E; auto. apply (i_linked _ _ _ _ _ _ I) in E. destruct E as (a' & E & _). assert (ready s c = true) by (apply (i_ready _ _ _ _ _ _ I); congruence). congruence. }
    assert (Nx : forall l1 t0 o l2, EAwake t c :: log s = l1 ++ EPick t0 o :: l2 -> shared_next pinned l2 t0 o) by (apply next_cons; [discriminate|auto]).
    unfold awakened, can_detach. rewrite Hk. cbn [linked att with_log with_ready]. rewrite L, At, Nat.eqb_refl. destruct (pinned c) eqn:Pn; simpl; constructor; simpl; auto.
    + assert (Wc : worker c = negb (pinned c)) by reflexivity; rewrite Pn in Wc; simpl in Wc; rewrite Wc; simpl. now rewrite app_nil_r.
    + intros t0. rewrite ?Pn, Hn. simpl. rewrite <- app_assoc. f_equal. destruct (Nat.eqb_spec t0 t) as [->|Nt]; [now updt|]. rewrite upd_other by (intros E; apply Nt; auto). now rewrite app_nil_r.
    + assert (Wc : worker c = negb (pinned c)) by reflexivity; rewrite Pn in Wc; simpl in Wc; rewrite Wc; simpl. rewrite Hw. now rewrite <- app_assoc.
    + intros t0. rewrite ?Pn, Hn. simpl. now rewrite app_nil_r.
  - injection St as <-. unfold pick_next in *. rewrite Hk in *. destruct (shq s) as [|c l] eqn:Es; [destruct (q s (cur s t)) as [|c l] eqn:Eq|].
    + simpl in *. constructor; simpl; auto.
      * intros t'. destruct (Nat.eq_dec t' t) as [->|]; updt; auto.
      * rewrite Es. auto.
      * apply next_cons; auto. intros t0 o E. injection E as <- <-. simpl. rewrite app_nil_r in Hw. split; auto. now rewrite Hn, Eq, app_nil_r.
    + assert (Pn : pinned c = true). { assert (X : pl c = Some (InQueue (cur s t))) by (apply (i_q _ _ _ _ _ _ I); rewrite Eq; now left). apply (i_pl _ _ _ _ _ _ I) in X. simpl in X. rewrite Hk in X. now destruct X as (? & _ & _ & X). }
      simpl in *. constructor; simpl; auto.
      * intros t'. destruct (Nat.eq_dec t' t) as [->|]; updt; auto.
      * assert (Wc : worker c = negb (pinned c)) by reflexivity; rewrite Pn in Wc; simpl in Wc; rewrite Wc; simpl. rewrite ?Es, app_nil_r. auto.
      * intros t0. rewrite ?Pn, Hn. simpl. rewrite <- app_assoc. f_equal. destruct (Nat.eqb_spec t0 t) as [->|Nt]; [updt; now rewrite Eq|]. rewrite upd_other by (intros E; apply Nt; auto). reflexivity.
      * apply next_cons; auto. intros t0 o E. injection E as <- <-. simpl. rewrite Pn. rewrite app_nil_r in Hw. split; auto. exists l. now rewrite Hn, Eq.
    + assert (X : pl c = Some InShared) by (apply (i_sh _ _ _ _ _ _ I); rewrite Es; now left). destruct (i_pl _ _ _ _ _ _ I _ _ X) as [Pn An].
      assert (L : linked s c = false). { destruct (linked s c) eqn:E; auto. apply (i_linked _ _ _ _ _ _ I) in E. destruct E as (a' & E & _). congruence. }
      unfold attach_finish, can_attach in *. cbn [linked att] in *. rewrite An, L in *. simpl in *. constructor; simpl; auto.
      * intros t'. destruct (Nat.eq_dec t' t) as [->|]; updt; auto.
      * assert (Wc : worker c = negb (pinned c)) by reflexivity; rewrite Pn in Wc; simpl in Wc; rewrite Wc; simpl. rewrite Hw, <- app_assoc. reflexivity.
      * intros t0. rewrite ?Pn, Hn. simpl. now rewrite app_nil_r.
      * apply next_cons; auto. intros t0 o E. injection E as <- <-. simpl. rewrite Pn. exists l. auto.
  - exfalso. destruct (owner s b); [discriminate|]. injection St as <-. apply (Ns t b). now left.
Qed.
Lemma log_grows s pl l s' : inv s pl None -> step s l = Some s' -> exists l1, log s' = l1 ++ log s.
Proof. intros I St. destruct (step_rec pinned home kind sched s pl l s' I St) as [[-> _]|(e & -> & _)]; [exists []|exists [e]]; reflexivity. Qed.
Lemma shared_reach cur0 owner0 s : well_started cur0 owner0 -> (forall t, kind (cur0 t) = SharedWork) -> reachable step (init_state pinned home cur0 owner0) s -> no_set (log s) -> shared s.
Proof.
  intros W K R. assert (X : all s /\ (no_set (log s) -> shared s)); [|apply X]. revert s R. apply reachable_inv.
  - split; [eapply all_reach; eauto; apply reachable_refl|]. intros _. constructor; simpl; auto. intros [|x l1]; discriminate.
  - intros s l s' [A H] St. split; [eapply all_step; eauto|]. intros Ns. apply (shared_step s l); auto. apply H. destruct (a_inv _ _ _ _ A) as [pl I]. destruct (log_grows s pl l s' I St) as [l1 E]. rewrite E in Ns. intros t b Hi. apply (Ns t b). apply in_or_app. auto.
Qed.

(** ** A pinned context gets its turn, if the algorithm of its thread is not shared_work *)
Definition waiting (s : st) (t c i : nat) : Prop := exists l1 l2, q s (cur s t) = l1 ++ c :: l2 /\ length l1 <= i.
Lemma finish_q s t k o : q (finish s t k o) = q s.
Proof. destruct k, o; reflexivity. Qed.
Lemma draw_queue s t' d s' r n k c l1 l2 a : draw pinned kind sched s t' r n k d = Some s' -> pinned c = true -> q s a = l1 ++ c :: l2 -> exists l1', q s' a = l1' ++ c :: l2 /\ length l1' <= length l1.
Proof.
  intros St Pn Q. unfold draw in St. destruct (kind (cur s t')) as [| |own loc remote] eqn:Kt; try discriminate. destruct (nth_error _ _) as [i|] eqn:Ed.
  - destruct (i =? own); [destruct r; injection St as <-; simpl; eauto|]. destruct (sched (cur s t') i) as [v|] eqn:Sv; [|injection St as <-; simpl; eauto].
    assert (Em : forall o, (if S n <? length (if r then remote else loc) then Some (with_pc s t' (Steal r (S n) k)) else if negb r && negb (length remote =? 0) then Some (with_pc s t' (Steal true 0 k)) else Some (finish s t' k o)) = Some s' -> exists l1', q s' a = l1' ++ c :: l2 /\ length l1' <= length l1).
    { intros o. destruct (S n <? _); [intros X; injection X as <-; simpl; eauto|]. destruct (negb r && _); [intros X; injection X as <-; simpl; eauto|]. intros X; injection X as <-. rewrite finish_q. eauto. }
    unfold steal in St. destruct (q s v) as [|y ll] eqn:Ev; [eauto|]. destruct (pinned y) eqn:Py; [eauto|]. rewrite Py in St. injection St as <-. 
    assert (X : exists l1', upd (q s) v ll a = l1' ++ c :: l2 /\ length l1' <= length l1).
    { destruct (Nat.eq_dec a v) as [->|]; updt; [|eauto]. rewrite Ev in Q. destruct l1 as [|z l1]; injection Q as -> ->; [congruence|]. exists l1. simpl. auto. }
    unfold attach_finish. match goal with |- context [if ?x then _ else _] => destruct x end; rewrite ?finish_q; exact X.
  - destruct (if r then remote else loc); [injection St as <-; simpl; eauto|discriminate].
Qed.
Lemma draw_pc s t d s' r n : all s -> pc s t = Steal r n None -> draw pinned kind sched s t r n None d = Some s' -> pc s' t = Idle \/ exists r' n', pc s' t = Steal r' n' None.
Proof.
  intros A Pc St. assert (St0 : step s (Draw t d) = Some s') by (simpl; now rewrite Pc). destruct (a_inv _ _ _ _ A) as [pl I]. assert (A' := all_step _ _ _ _ cfg _ _ _ A St0).
  assert (Er : errs s' = errs s -> pc s' t = Idle \/ exists r' n', pc s' t = Steal r' n' None).
  { unfold draw in St. intros Er. destruct (kind (cur s t)) as [| |own loc remote] eqn:Kt; try discriminate.
    assert (We : forall s0 e, errs s0 = errs s -> Some (with_err s0 t e) = Some s' -> pc s' t = Idle \/ exists r' n', pc s' t = Steal r' n' None). { intros s0 e E0 X. injection X as <-. simpl in Er. rewrite E0 in Er. exfalso. revert Er. apply neq_cons. }
    destruct (nth_error _ _) as [i|] eqn:Ed.
    - destruct (i =? own); [destruct r; [eauto|injection St as <-; simpl; updt; eauto]|]. destruct (sched (cur s t) i) as [v|] eqn:Sv; [|eauto].
      assert (Em : (if S n <? length (if r then remote else loc) then Some (with_pc s t (Steal r (S n) None)) else if negb r && negb (length remote =? 0) then Some (with_pc s t (Steal true 0 None)) else Some (finish s t None None)) = Some s' -> pc s' t = Idle \/ exists r' n', pc s' t = Steal r' n' None).
      { destruct (S n <? _); [intros X; injection X as <-; simpl; updt; eauto|]. destruct (negb r && _); [intros X; injection X as <-; simpl; updt; eauto|]. intros X; injection X as <-. simpl. updt. auto. }
      unfold steal in St. destruct (q s v) as [|y ll] eqn:Ev; [eauto|]. destruct (pinned y) eqn:Py; [eauto|]. rewrite Py in St. unfold attach_finish in St. match type of St with context [if ?x then _ else _] => destruct x end; [injection St as <-; simpl; updt; auto|eapply We; [|exact St]; reflexivity].
    - destruct (if r then remote else loc); [eauto|discriminate]. }
  apply Er. destruct (inv_step pinned home kind sched cfg s pl _ s' I St0) as (pl' & I' & [X|X]); auto. exfalso. clear Er.
  unfold draw in St. destruct (i_steal _ _ _ _ _ _ I _ _ _ _ Pc) as (own & loc & remote & K & Rm). rewrite K in St. destruct (cfg _ _ _ _ K) as (Ln & Nr & Sc).
  assert (Ne : forall s0, errs s0 = errs s -> Some s0 = Some s' -> False). { intros s0 E0 E1. injection E1 as ->. rewrite E0 in X. symmetry in X. revert X. apply neq_cons. }
  assert (Nw : forall s0 e, e <> NullAwakened -> Some (with_err s0 t e) = Some s' -> False). { intros s0 e He E1. injection E1 as <-. simpl in X. congruence. }
  destruct (nth_error _ _) as [i|] eqn:Ed.
  - destruct (i =? own); [destruct r; [eapply Nw; [|eauto]; discriminate|eapply Ne; [|eauto]; reflexivity]|]. destruct (sched (cur s t) i) as [v|] eqn:Sv; [|eapply Nw; [|eauto]; discriminate].
    unfold steal in St. destruct (q s v) as [|y ll] eqn:Ev; [|destruct (pinned y) eqn:Py; [|rewrite Py in St; unfold attach_finish in St; match type of St with context [if ?x then _ else _] => destruct x end; [eapply Ne; [|eauto]; reflexivity|eapply Nw; [|eauto]; discriminate]]].
    all: destruct (S n <? _); [eapply Ne; [|eauto]; reflexivity|]; destruct (negb r && _); (eapply Ne; [|eauto]; reflexivity).
  - destruct (if r then remote else loc); [eapply Nw; [|eauto]; discriminate|discriminate].
Qed.
Lemma waiting_step s l s' t c i : all s -> step s l = Some s' -> pinned c = true -> sw kind (cur s t) = false -> (forall b, l <> SetAlgo t b) -> (pc s t = Idle \/ exists r n, pc s t = Steal r n None) -> waiting s t c i ->
  cur s' t = cur s t /\ (pc s' t = Idle \/ exists r n, pc s' t = Steal r n None) /\ (In (EPick t (Some c)) (log s') \/ waiting s' t c (i - if match l with Pick t' => t =? t' | _ => false end then 1 else 0) /\ (l = Pick t -> 1 <= i)).
Proof.
  intros A St Pn Sw Nl Pc (l1 & l2 & Q & Hi). destruct (a_inv _ _ _ _ A) as [pl I]. set (a := cur s t) in *.
  assert (Oa : owner s a = Some t) by apply (i_cur _ _ _ _ _ _ I).
  destruct (Nat.eq_dec (thread l) t) as [E|N].
  - destruct l as [t' x|t' x|t'|t' d|t' b|t']; simpl in E; subst t'; simpl in St.
    + destruct Pc as [Pc|(r & n & Pc)]; rewrite Pc in St; [|discriminate]. destruct (att s x); [discriminate|]. destruct (_ || _); [discriminate|]. injection St as <-. simpl. splits; eauto. right. split; [|discriminate]. exists l1, l2. split; auto. lia.
    + destruct Pc as [Pc|(r & n & Pc)]; rewrite Pc in St; [|discriminate]. destruct (att s x) as [t'|] eqn:At; [|discriminate]. destruct (Nat.eqb_spec t t') as [<-|]; [|discriminate]. destruct (ready s x) eqn:Rd; [discriminate|]. injection St as <-.
      assert (L : linked s x = false). { destruct (linked s x) eqn:El; auto. apply (i_linked _ _ _ _ _ _ I) in El. destruct El as (a' & El & _). assert (ready s x = true) by (apply (i_ready _ _ _ _ _ _ I); congruence). congruence. }
      unfold awakened, can_detach. fold a. unfold sw in Sw. cbn [linked att with_log with_ready]. rewrite L, At, Nat.eqb_refl. fold a.
      assert (Wt : forall att' li rd lg, cur (mkSt (upd (q s) a (q s a ++ [x])) (shq s) (cur s) (owner s) att' li rd (pc s) (errs s) lg) t = a /\ waiting (mkSt (upd (q s) a (q s a ++ [x])) (shq s) (cur s) (owner s) att' li rd (pc s) (errs s) lg) t c (i - 0)).
      { intros. split; auto. exists l1, (l2 ++ [x]). simpl. fold a. updt. rewrite Q, <- app_assoc. split; auto. lia. }
      destruct (kind a); try discriminate; [|destruct (pinned x)]; simpl; (split; [reflexivity|]; split; [left; exact Pc|]; right; split; [apply Wt|discriminate]).
    + destruct Pc as [Pc|(r & n & Pc)]; rewrite Pc in St; [|discriminate]. injection St as <-. rewrite Nat.eqb_refl. unfold pick_next. fold a. unfold sw in Sw. destruct l1 as [|y l1]; simpl in Q.
      * rewrite Q. destruct (kind a); try discriminate; rewrite ?Pn; simpl; updt; splits; eauto.
      * rewrite Q. assert (Wt : forall att' li rd lg p, cur (mkSt (upd (q s) a (l1 ++ c :: l2)) (shq s) (cur s) (owner s) att' li rd p (errs s) lg) t = a /\ waiting (mkSt (upd (q s) a (l1 ++ c :: l2)) (shq s) (cur s) (owner s) att' li rd p (errs s) lg) t c (i - 1)).
        { intros. split; auto. exists l1, l2. simpl. fold a. updt. split; auto. simpl in Hi. lia. }
        simpl in Hi. destruct (kind a) eqn:K; try discriminate.
        -- simpl. split; [reflexivity|]. split; [left; now updt|]. right. split; [apply Wt|lia].
        -- destruct (pinned y) eqn:Py; [simpl; split; [reflexivity|]; split; [left; now updt|]; right; split; [apply Wt|lia]|].
           destruct (free pinned home kind s a y A) as [F1 F2]; [unfold order; rewrite K, Q; now left|]. unfold attach_finish, can_attach. cbn [att linked]. rewrite F1, F2 by (rewrite ?K; auto). simpl. split; [reflexivity|]. split; [left; now updt|]. right. split; [apply Wt|lia].
    + destruct Pc as [Pc|(r & n & Pc)]; rewrite Pc in St; [discriminate|]. destruct (draw_queue s t d s' r n None c l1 l2 a St Pn Q) as (l1' & Q' & Hl).
      assert (C' : cur s' t = a). { destruct (draw_effect pinned home kind sched s pl t r n None d s' I Pc St) as (_ & C' & _). now rewrite C'. }
      split; auto. split; [apply (draw_pc s t d s' r n); auto|]. right. split; [|discriminate]. exists l1', l2. rewrite C'. split; auto. lia.
    + now destruct (Nl b).
    + destruct Pc as [Pc|(r & n & Pc)]; rewrite Pc in St; discriminate.
  - destruct (other_step pinned home kind sched s l s' t A St N) as [Ep Ec]. split; [now rewrite Ec|]. split; [now rewrite Ep|]. right.
    assert (F : match l with Pick t' => t =? t' | _ => false end = false) by (destruct l; auto; simpl in N; apply Nat.eqb_neq; auto). rewrite F. split; [|intros ->; simpl in N; congruence].
    assert (Nc : cur s (thread l) <> a) by (intros E; rewrite <- E, (i_cur _ _ _ _ _ _ I) in Oa; congruence).
    assert (Ni : forall b, installing s (thread l) b -> b <> a) by (intros b H ->; apply (i_inst _ _ _ _ _ _ I) in H; destruct H; congruence).
    assert (Wt : q s' a = q s a -> waiting s' t c (i - 0)) by (intros E; exists l1, l2; rewrite Ec; fold a; rewrite E; split; auto; lia).
    assert (Aw : forall s0 b x, b <> a -> q (awakened pinned kind s0 (thread l) b x) a = q s0 a). { intros s0 b x Nb. unfold awakened. destruct (kind b); repeat match goal with |- context [if ?x then _ else _] => destruct x end; simpl; updt; auto. }
    assert (Pi : forall k, q (pick_next pinned kind s (thread l) (cur s (thread l)) k) a = q s a).
    { intros k. unfold pick_next, attach_finish. destruct (kind (cur s (thread l))); [destruct (q s (cur s (thread l))) eqn:E|destruct (shq s) eqn:E; [destruct (q s (cur s (thread l))) eqn:E2|]|destruct (q s (cur s (thread l))) eqn:E]; repeat match goal with |- context [if ?x then _ else _] => destruct x end; rewrite ?finish_q; simpl; updt; auto. }
    destruct l as [t' x|t' x|t'|t' d|t' b|t']; simpl in St, Nc, Ni, Aw, Pi, N; destruct (pc s t') as [|rem n k|b'|b'|b' c'|] eqn:Epc; try discriminate.
    + destruct (att s x); [discriminate|]. destruct (pinned x || ready s x); [discriminate|]. injection St as <-. now apply Wt.
    + destruct (att s x); [|discriminate]. destruct (_ && _); [|discriminate]. injection St as <-. apply Wt. now rewrite Aw.
    + injection St as <-. apply Wt, Pi.
    + destruct (draw_queue s t' d s' rem n k c l1 l2 a St Pn Q) as (l1' & Q' & Hl). exists l1', l2. rewrite Ec. fold a. split; auto. lia.
    + destruct (owner s b); [discriminate|]. injection St as <-. now apply Wt.
    + destruct (has_ready _ _ _); injection St as <-; now apply Wt.
    + injection St as <-. apply Wt, Pi.
    + injection St as <-. apply Wt. rewrite Aw; auto. apply Ni. unfold installing. now rewrite Epc.
Qed.
Lemma waiting_exec ls : forall s s' t c i, all s -> exec step s ls = Some s' -> pinned c = true -> sw kind (cur s t) = false -> (forall b, ~ In (SetAlgo t b) ls) -> (pc s t = Idle \/ exists r n, pc s t = Steal r n None) -> waiting s t c i ->
  i < calls t ls -> In (EPick t (Some c)) (log s').
Proof.
  induction ls as [|l ls IH]; intros s s' t c i A E Pn Sw Nl Pc W Hc; [unfold calls in Hc; simpl in Hc; lia|]. cbn [exec] in E. destruct (step s l) as [s1|] eqn:St; [|discriminate].
  destruct (waiting_step s l s1 t c i A St Pn Sw) as (C1 & P1 & X); auto; [intros b ->; apply (Nl b); now left|].
  assert (A1 := all_step _ _ _ _ cfg _ _ _ A St). destruct X as [X|[X Y]].
  - assert (G : forall ls s2 s3, all s2 -> exec step s2 ls = Some s3 -> In (EPick t (Some c)) (log s2) -> In (EPick t (Some c)) (log s3)).
    { clear - cfg. induction ls as [|l ls IH]; simpl; intros s2 s3 A E H; [congruence|]. destruct (step s2 l) as [s4|] eqn:St; [|discriminate]. apply (IH s4 s3); auto; [eapply all_step; eauto|]. destruct (a_inv _ _ _ _ A) as [pl I]. destruct (log_grows s2 pl l s4 I St) as [l1 ->]. apply in_or_app. auto. }
    eapply G; eauto.
  - apply (IH s1 s' t c (i - if match l with Pick t' => t =? t' | _ => false end then 1 else 0)); auto; [rewrite C1; auto|intros b H; apply (Nl b); now right|].
    unfold calls in Hc. simpl in Hc. destruct l as [t' x|t' x|t'|t' d|t' b|t']; fold (calls t ls) in Hc |- *; try lia. destruct (Nat.eqb_spec t t') as [<-|]; [simpl in Hc|]; fold (calls t ls) in Hc; [|lia]. specialize (Y eq_refl). lia.
Qed.
End Facts.
