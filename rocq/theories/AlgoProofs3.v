(** Replacing the scheduling algorithm (C57). *)
From Coq Require Import List Arith Bool Lia.
From Verif Require Import Base Algo AlgoSpec AlgoFacts AlgoProofs AlgoProofs2.
Import ListNotations.

Section Facts.
Variable pinned : nat -> bool.
Variable home : nat -> nat.
Variable kind : nat -> akind.
Variable sched : nat -> nat -> option nat.
Variable cfg : well_configured kind sched.
Notation step := (step pinned kind sched).
Notation inv := (inv pinned home kind).
Notation all := (all pinned home kind).
Notation order := (order kind).
Definition sw (a : nat) : bool := match kind a with SharedWork => true | _ => false end.

Lemma has_ready_order s a : has_ready kind s a = negb (length (order s a) =? 0).
Proof. unfold has_ready, AlgoSpec.order. destruct (kind a); auto. rewrite app_length. destruct (length (shq s)); auto. Qed.
Lemma free s a c : all s -> In c (order s a) -> (pinned c = false -> is_stealing (kind a) = true \/ In c (shq s) -> att s c = None) /\ (is_stealing (kind a) = true \/ In c (shq s) -> linked s c = false).
Proof.
  intros [[pl I] _ _ _] H. assert (X : In c (q s a) \/ In c (shq s)). { unfold AlgoSpec.order in H. destruct (kind a); auto. apply in_app_or in H. tauto. }
  destruct X as [X|X].
  - apply (i_q _ _ _ _ _ _ I) in X. assert (Y := i_pl _ _ _ _ _ _ I _ _ X). simpl in Y. destruct Y as (t0 & _ & _ & K). split.
    + intros Pn [Ks|Hs]; [destruct (kind a); try discriminate; auto|]. apply (i_sh _ _ _ _ _ _ I) in Hs. congruence.
    + intros [Ks|Hs]; [|apply (i_sh _ _ _ _ _ _ I) in Hs; congruence]. destruct (linked s c) eqn:L; auto. apply (i_linked _ _ _ _ _ _ I) in L. destruct L as (a' & P' & K'). congruence.
  - apply (i_sh _ _ _ _ _ _ I) in X. assert (Y := i_pl _ _ _ _ _ _ I _ _ X). simpl in Y. split; [intros _ _; apply Y|]. intros _. destruct (linked s c) eqn:L; auto. apply (i_linked _ _ _ _ _ _ I) in L. destruct L as (a' & P' & K'). congruence.
Qed.
Lemma pick_move s t b c l : all s -> pc s t = SetPick b -> order s (cur s t) = c :: l ->
  exists s1, step s (Tick t) = Some s1 /\ pc s1 t = SetPush b c /\ cur s1 = cur s /\ order s1 (cur s t) = l /\ (forall x, x <> cur s t -> q s1 x = q s x) /\ errs s1 = errs s /\ log s1 = log s /\ (sw (cur s t) = false -> shq s1 = shq s).
Proof.
  intros A P O. set (a := cur s t) in *. destruct (free s a c A) as [F1 F2]; [rewrite O; now left|]. simpl. rewrite P. eexists. split; [reflexivity|]. fold a. unfold pick_next, sw. unfold AlgoSpec.order in *. destruct (kind a) as [| |own loc remote] eqn:K.
  - rewrite O. simpl. updt. splits; auto. intros; now updt.
  - destruct (shq s) as [|c' l'] eqn:Es; simpl in O.
    + rewrite O. simpl. updt. rewrite ?Es. splits; auto; try discriminate. intros; now updt.
    + injection O as -> <-. assert (Pn : pinned c = false). { destruct A as [[pl I] _ _ _]. assert (X : pl c = Some InShared) by (apply (i_sh _ _ _ _ _ _ I); rewrite Es; now left). apply (i_pl _ _ _ _ _ _ I) in X. apply X. }
      unfold attach_finish, can_attach. cbn [att linked]. rewrite F1, F2 by (auto; right; now left). simpl. updt. splits; auto. discriminate.
  - rewrite O. destruct (pinned c) eqn:Pn.
    + simpl. updt. splits; auto. intros; now updt.
    + unfold attach_finish, can_attach. cbn [att linked]. rewrite F1, F2 by auto. simpl. updt. splits; auto. intros; now updt.
Qed.
Lemma push_move s t b c : all s -> pc s t = SetPush b c ->
  exists s1, step s (Tick t) = Some s1 /\ pc s1 t = SetTest b /\ cur s1 = cur s /\ errs s1 = errs s /\ log s1 = log s /\
    (forall x, x <> b -> q s1 x = q s x) /\ q s1 b = q s b ++ (if sw b && negb (pinned c) then [] else [c]) /\ shq s1 = shq s ++ (if sw b && negb (pinned c) then [c] else []).
Proof.
  intros [[pl I] _ _ _] P. assert (X : pl c = Some (InHand t)) by (apply (i_hand _ _ _ _ _ _ I); eauto). assert (At : att s c = Some t) by (apply (i_pl _ _ _ _ _ _ I _ _ X)).
  assert (L : linked s c = false). { destruct (linked s c) eqn:E; auto. apply (i_linked _ _ _ _ _ _ I) in E. destruct E as (a' & E & _). congruence. }
  simpl. rewrite P. eexists. split; [reflexivity|]. unfold awakened, sw, can_detach. cbn [linked att with_pc]. rewrite L, At, Nat.eqb_refl. destruct (kind b); destruct (pinned c); simpl; updt; rewrite ?app_nil_r; splits; auto; intros; now updt.
Qed.
Lemma test_move s t b : pc s t = SetTest b -> order s (cur s t) <> [] -> exists s1, step s (Tick t) = Some s1 /\ s1 = with_pc s t (SetPick b).
Proof. intros P O. simpl. rewrite P, has_ready_order. destruct (order s (cur s t)); [easy|]. simpl. eauto. Qed.

(** One round of the loop, nobody interfering. *)
Lemma round s t b c l : all s -> pc s t = SetTest b -> order s (cur s t) = c :: l -> sw (cur s t) && sw b = false ->
  exists s1, exec step s [Tick t; Tick t; Tick t] = Some s1 /\ all s1 /\ pc s1 t = SetTest b /\ cur s1 = cur s /\ order s1 (cur s t) = l /\ errs s1 = errs s /\ log s1 = log s /\
    (forall x, x <> cur s t -> x <> b -> q s1 x = q s x) /\ q s1 b = q s b ++ (if sw b && negb (pinned c) then [] else [c]) /\
    (sw (cur s t) = false -> shq s1 = shq s ++ (if sw b && negb (pinned c) then [c] else [])).
Proof.
  intros A P O N. destruct (test_move s t b P) as (s1 & St1 & E1); [congruence|]. assert (A1 := all_step _ _ _ _ cfg _ _ _ A St1).
  assert (Nb : b <> cur s t). { destruct A as [[pl I] _ _ _]. apply (i_inst _ _ _ _ _ _ I t b). unfold installing. now rewrite P. }
  destruct (pick_move s1 t b c l A1) as (s2 & St2 & P2 & C2 & O2 & Q2 & E2 & L2 & S2); [subst s1; simpl; now updt|subst s1; exact O|]. assert (A2 := all_step _ _ _ _ cfg _ _ _ A1 St2).
  destruct (push_move s2 t b c A2 P2) as (s3 & St3 & P3 & C3 & E3 & L3 & Q3 & Q3b & S3). assert (A3 := all_step _ _ _ _ cfg _ _ _ A2 St3).
  exists s3. split; [cbn [exec]; now rewrite St1, St2, St3|]. subst s1. simpl in *. splits; auto; try congruence.
  - unfold AlgoSpec.order in *. rewrite Q3 by auto. rewrite S3. unfold sw in N. destruct (kind (cur s t)) eqn:K; auto. destruct (sw b) eqn:Sb; [unfold sw in Sb; now destruct (kind b)|]. simpl. now rewrite app_nil_r.
  - intros x N1 N2. rewrite Q3, Q2; auto.
  - rewrite Q3b, Q2; auto.
  - intros H. rewrite S3, S2; auto.
Qed.
Lemma last_round s t b : all s -> pc s t = SetTest b -> order s (cur s t) = [] ->
  step s (Tick t) = Some (with_log (mkSt (q s) (shq s) (upd (cur s) t b) (owner s) (att s) (linked s) (ready s) (upd (pc s) t Idle) (errs s) (log s)) (ESetDone t b)).
Proof. intros A P O. simpl. rewrite P, has_ready_order, O. reflexivity. Qed.

Lemma move_all l : forall s t b, all s -> pc s t = SetTest b -> order s (cur s t) = l -> sw (cur s t) && sw b = false ->
  exists s1, exec step s (repeat (Tick t) (3 * length l + 1)) = Some s1 /\ pc s1 t = Idle /\ cur s1 = upd (cur s) t b /\ order s1 (cur s t) = [] /\ errs s1 = errs s /\ log s1 = ESetDone t b :: log s /\
    (forall x, x <> cur s t -> x <> b -> q s1 x = q s x) /\ q s1 b = q s b ++ filter (fun c => negb (sw b && negb (pinned c))) l /\
    (sw (cur s t) = false -> shq s1 = shq s ++ filter (fun c => sw b && negb (pinned c)) l).
Proof.
  induction l as [|c l IH]; intros s t b A P O N.
  - pose proof (last_round s t b A P O) as St. simpl length. cbn [Nat.mul Nat.add repeat exec]. eexists. split; [now rewrite St|]. simpl. updt. rewrite !app_nil_r. splits; auto.
  - destruct (round s t b c l A P O N) as (s1 & E1 & A1 & P1 & C1 & O1 & Er1 & L1 & Q1 & Qb1 & S1). destruct (IH s1 t b A1 P1) as (s2 & E2 & P2 & C2 & O2 & Er2 & L2 & Q2 & Qb2 & S2); [rewrite C1; auto|rewrite C1; auto|].
    exists s2. split.
    { replace (3 * length (c :: l) + 1) with (3 + (3 * length l + 1)) by (cbn [length]; lia). rewrite repeat_app. apply exec_app. exists s1. split; auto. }
    rewrite C1 in *. splits; auto; try congruence.
    + intros x Nx Nb. rewrite Q2, Q1; auto.
    + rewrite Qb2, Qb1, <- app_assoc. f_equal. simpl. destruct (sw b && negb (pinned c)); reflexivity.
    + intros H. rewrite S2, S1, <- app_assoc by auto. f_equal. simpl. destruct (sw b && negb (pinned c)); reflexivity.
Qed.

(** ** shared_work replaced by shared_work *)
Definition spinning (s : st) (t a b : nat) : Prop := sw a = true /\ sw b = true /\ cur s t = a /\
  ((pc s t = SetTest b \/ pc s t = SetPick b) /\ shq s <> [] \/ exists c, pc s t = SetPush b c /\ pinned c = false).
Lemma spin_step s s' t a b : all s -> spinning s t a b -> step s (Tick t) = Some s' -> spinning s' t a b /\ log s' = log s.
Proof.
  intros A (Sa & Sb & C & H) St. destruct H as [[[P|P] H]|(c & P & Pn)].
  - destruct (test_move s t b P) as (s1 & St1 & ->). { unfold AlgoSpec.order. rewrite C. unfold sw in Sa. destruct (kind a); try discriminate. destruct (shq s); [easy|discriminate]. }
    rewrite St1 in St. injection St as <-. split; auto. unfold spinning. simpl. updt. splits; auto.
  - destruct (shq s) as [|c l] eqn:Es; [easy|]. destruct (pick_move s t b c (l ++ q s a) A P) as (s1 & St1 & P1 & C1 & _ & _ & _ & L1 & _). { unfold AlgoSpec.order. rewrite C, Es. unfold sw in Sa. destruct (kind a); try discriminate. auto. }
    rewrite St1 in St. injection St as <-. split; auto. unfold spinning. rewrite C1. splits; auto. right. exists c. split; auto. destruct A as [[pl I] _ _ _]. assert (X : pl c = Some InShared) by (apply (i_sh _ _ _ _ _ _ I); rewrite Es; now left). apply (i_pl _ _ _ _ _ _ I) in X. apply X.
  - destruct (push_move s t b c A P) as (s1 & St1 & P1 & C1 & _ & L1 & _ & _ & S1). rewrite St1 in St. injection St as <-. split; auto. unfold spinning. rewrite C1. splits; auto. left. split; auto. rewrite S1, Sb, Pn. simpl. destruct (shq s); discriminate.
Qed.
Lemma spin_enabled s t a b : spinning s t a b -> exists s', step s (Tick t) = Some s'.
Proof. intros (_ & _ & _ & [[[P|P] _]|(c & P & _)]); simpl; rewrite P; eauto. destruct (has_ready _ _ _); eauto. Qed.
Lemma spin_exec n : forall s t a b, all s -> spinning s t a b -> exists s', exec step s (repeat (Tick t) n) = Some s' /\ spinning s' t a b /\ log s' = log s.
Proof.
  induction n as [|n IH]; intros s t a b A Sp; [exists s; auto|]. destruct (spin_enabled s t a b Sp) as [s1 St]. destruct (spin_step s s1 t a b A Sp St) as [Sp1 L1]. destruct (IH s1 t a b (all_step _ _ _ _ cfg _ _ _ A St) Sp1) as (s2 & E & Sp2 & L2).
  exists s2. cbn [repeat exec]. rewrite St. splits; auto. congruence.
Qed.

(** ** round_robin replaced: nobody can interfere *)
Definition todo (s : st) (t : nat) : nat := 3 * length (q s (cur s t)) + match pc s t with SetTest _ => 1 | SetPick _ => 0 | SetPush _ _ => 2 | _ => 0 end.
Definition replacing (s : st) (t a b : nat) : Prop := cur s t = a /\ kind a = RoundRobin /\ (pc s t = SetTest b \/ (pc s t = SetPick b /\ q s a <> []) \/ exists c, pc s t = SetPush b c).
Lemma other_queue s l s' t a : all s -> step s l = Some s' -> thread l <> t -> cur s t = a -> kind a = RoundRobin -> q s' a = q s a.
Proof.
  intros [[pl I] _ _ _] St N C K. assert (Oa : owner s a = Some t) by (rewrite <- C; apply (i_cur _ _ _ _ _ _ I)).
  assert (Nc : cur s (thread l) <> a) by (intros E; rewrite <- E, (i_cur _ _ _ _ _ _ I) in Oa; congruence).
  assert (Ni : forall b, installing s (thread l) b -> b <> a) by (intros b H ->; apply (i_inst _ _ _ _ _ _ I) in H; destruct H; congruence).
  assert (Fi : forall s0 k o, q (finish s0 (thread l) k o) = q s0) by (intros s0 k o; destruct k, o; reflexivity).
  assert (Aw : forall s0 b c, b <> a -> q (awakened pinned kind s0 (thread l) b c) a = q s0 a). { intros s0 b c Nb. unfold awakened. destruct (kind b); repeat match goal with |- context [if ?x then _ else _] => destruct x end; simpl; updt; auto. }
  assert (Pi : forall k, q (pick_next pinned kind s (thread l) (cur s (thread l)) k) a = q s a).
  { intros k. unfold pick_next, attach_finish. destruct (kind (cur s (thread l))); [destruct (q s (cur s (thread l))) eqn:E|destruct (shq s) eqn:E; [destruct (q s (cur s (thread l))) eqn:E2|]|destruct (q s (cur s (thread l))) eqn:E]; repeat match goal with |- context [if ?x then _ else _] => destruct x end; rewrite ?Fi; simpl; updt; auto. }
  destruct l as [t' c|t' c|t'|t' d|t' b|t']; simpl in St, Nc, Ni, Fi, Aw, Pi, N; destruct (pc s t') as [|rem n k|b'|b'|b' c'|] eqn:Epc; try discriminate.
  - destruct (att s c); [discriminate|]. destruct (pinned c || ready s c); [discriminate|]. now injection St as <-.
  - destruct (att s c); [|discriminate]. destruct (_ && _); [|discriminate]. injection St as <-. now rewrite Aw.
  - injection St as <-. apply Pi.
  - unfold draw in St. destruct (kind (cur s t')) as [| |own loc remote] eqn:Kt; try discriminate. destruct (cfg _ _ _ _ Kt) as (_ & _ & Sc). destruct (nth_error _ _) as [i|] eqn:Ed.
    + destruct (i =? own); [destruct rem; now injection St as <-|]. destruct (sched (cur s t') i) as [v|] eqn:Sv; [|now injection St as <-].
      assert (Nv : v <> a). { intros ->. destruct (Sc i) as (v' & Sv' & Kv). - apply nth_error_In in Ed. apply in_or_app. destruct rem; auto. - assert (v' = a) by congruence. subst. now rewrite K in Kv. }
      unfold steal in St. destruct (q s v) as [|c ll].
      * destruct (S n <? _); [now injection St as <-|]. destruct (negb rem && _); [now injection St as <-|]. injection St as <-. now rewrite Fi.
      * destruct (pinned c) eqn:Pn.
        -- destruct (S n <? _); [now injection St as <-|]. destruct (negb rem && _); [now injection St as <-|]. injection St as <-. now rewrite Fi.
        -- rewrite Pn in St. injection St as <-. unfold attach_finish. match goal with |- context [if ?x then _ else _] => destruct x end; rewrite ?Fi; simpl; now updt.
    + destruct (if rem then remote else loc); [now injection St as <-|discriminate].
  - destruct (owner s b); [discriminate|]. now injection St as <-.
  - destruct (has_ready _ _ _); now injection St as <-.
  - injection St as <-. apply Pi.
  - injection St as <-. rewrite Aw; auto. apply Ni. unfold installing. now rewrite Epc.
Qed.
Lemma replacing_step s l s' t a b : all s -> step s l = Some s' -> replacing s t a b ->
  (replacing s' t a b \/ l = Tick t /\ cur s' t = b /\ pc s' t = Idle /\ log s' = ESetDone t b :: log s) /\
  (replacing s' t a b -> todo s' t + (if match l with Tick t' => t =? t' | _ => false end then 1 else 0) = todo s t /\ (thread l = t -> log s' = log s)).
Proof.
  intros A St (C & K & P). assert (Nt : sw a = false) by (unfold sw; now rewrite K). destruct (Nat.eq_dec (thread l) t) as [E|N].
  - assert (l = Tick t) by (destruct l; simpl in E; subst; simpl in St; destruct P as [P|[[P _]|[c0 P]]]; rewrite P in St; try discriminate; auto). subst l. rewrite Nat.eqb_refl. destruct P as [P|[[P H]|[c P]]].
    + destruct (q s a) as [|c l] eqn:Q.
      * assert (O : order s (cur s t) = []) by (unfold AlgoSpec.order; now rewrite C, K). rewrite (last_round s t b A P O) in St. injection St as <-. split; [right; simpl; updt; auto|].
        intros (C' & _). simpl in C'. updt. destruct A as [[pl I] _ _ _]. exfalso. assert (X : installing s t b) by (unfold installing; now rewrite P). apply (i_inst _ _ _ _ _ _ I) in X. destruct X as [_ X]. congruence.
      * destruct (test_move s t b P) as (s1 & St1 & ->); [unfold AlgoSpec.order; rewrite C, K, Q; discriminate|]. rewrite St1 in St. injection St as <-. unfold replacing, todo. simpl. updt. rewrite C, Q, P. splits; auto; try (intros; split; auto; lia). left. splits; auto. right. left. split; auto. discriminate.
    + destruct (q s a) as [|c l] eqn:Q; [easy|]. destruct (pick_move s t b c l A P) as (s1 & St1 & P1 & C1 & O1 & _ & _ & L1 & _); [unfold AlgoSpec.order; now rewrite C, K|]. rewrite St1 in St. injection St as <-. unfold AlgoSpec.order in O1. rewrite C, K in O1.
      unfold replacing, todo. rewrite C1, P1, P, C, O1, Q. split; [left; splits; eauto|]. intros _. cbn [length]. split; [lia|auto].
    + destruct (push_move s t b c A P) as (s1 & St1 & P1 & C1 & _ & L1 & Q1 & _ & _). rewrite St1 in St. injection St as <-. assert (Nb : a <> b). { destruct A as [[pl I] _ _ _]. assert (X : installing s t b) by (unfold installing; now rewrite P). apply (i_inst _ _ _ _ _ _ I) in X. destruct X as [_ X]. congruence. }
      unfold replacing, todo. rewrite C1, P1, P, C, Q1 by auto. split; [left; splits; eauto|]. intros _. split; [lia|auto].
  - destruct (other_step pinned home kind sched s l s' t A St N) as [Ep Ec]. assert (Eq := other_queue s l s' t a A St N C K). assert (F : match l with Tick t' => t =? t' | _ => false end = false) by (destruct l; auto; simpl in N; apply Nat.eqb_neq; auto).
    unfold replacing, todo. rewrite Ep, Ec, C, Eq, F. split; [left; splits; auto|]. intros _. split; [lia|intros; congruence].
Qed.
Lemma replacing_exec ls : forall s s' t a b, all s -> exec step s ls = Some s' -> replacing s t a b -> todo s t <= ticks t ls -> 1 <= ticks t ls ->
  exists ls1 ls2 s1 s2, ls = ls1 ++ Tick t :: ls2 /\ exec step s ls1 = Some s1 /\ step s1 (Tick t) = Some s2 /\ log s2 = ESetDone t b :: log s1 /\ cur s2 t = b /\ pc s2 t = Idle.
Proof.
  induction ls as [|l ls IH]; intros s s' t a b A E R Hl H1; [unfold ticks in H1; simpl in H1; lia|]. cbn [exec] in E. destruct (step s l) as [s1|] eqn:St; [|discriminate]. destruct (replacing_step s l s1 t a b A St R) as [[R1|(-> & C1 & P1 & L1)] H].
  - destruct (H R1) as [T _]. assert (Tk : ticks t (l :: ls) = (if match l with Tick t' => t =? t' | _ => false end then 1 else 0) + ticks t ls) by (unfold ticks; simpl; destruct (match l with Tick t' => t =? t' | _ => false end); auto).
    assert (Po : 1 <= todo s1 t). { destruct R1 as (C1 & K1 & P1). unfold todo. destruct P1 as [P1|[[P1 Q1]|[c P1]]]; rewrite P1; try lia. rewrite C1. destruct (q s1 a); [easy|]. simpl. lia. }
    destruct (IH s1 s' t a b) as (l1 & l2 & s2 & s3 & -> & E2 & R'); auto; try lia; [eapply all_step; eauto|]. exists (l :: l1), l2, s2, s3. splits; try apply R'; auto. cbn [exec]. now rewrite St.
  - exists [], ls, s, s1. splits; auto.
Qed.
End Facts.
