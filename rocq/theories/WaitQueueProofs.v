From Coq Require Import List Arith Bool Lia.
From Verif Require Import Base Kernel KernelFacts WakeFacts WaitQueue WaitQueueSpec.
Import ListNotations.

Definition wst (p : pc) : wstat :=
  match p with
  | Idle => WNone
  | InWait i e => WUntimed i e
  | InWaitUntil i tp e => WTimed i tp e
  | Relock i tp e => WRelock i tp e
  end.

Definition stat_ok (k : kern) (p : pc) (f : fid) (st : status) : Prop :=
  match p with
  | Idle => st = Active
  | InWait i e => (xblocked (fib k f) /\ st = Blocked i None) \/
                  (xrunnable (fib k f) /\ exists j, st = Ready i None (ByNotify j))
  | InWaitUntil i tp e => (xblocked (fib k f) /\ st = Blocked i (Some tp)) \/
                  (xrunnable (fib k f) /\ exists src, st = Ready i (Some tp) src /\ (src = ByTimer -> tp <= now k))
  | Relock i tp e => exists src, st = Ready i (Some tp) src /\ tp <= now k
  end.

Record WInv (s : state) : Prop := {
  w_k : KInv (kn s) (qs s) (fun f => wst (pcs s f));
  w_wait : forall i, waiting (log s) i = map fst (filter (live (kn s)) (qs s i));
  w_stat : forall f, stat_ok (kn s) (pcs s f) f (stat (log s) f);
  w_disc : discipline (log s)
}.

Notation evs src a fs := (rev (map (fun f => EReady f src a) fs)).

Lemma evs_cons src a f fs h : evs src a (f :: fs) ++ h = evs src a fs ++ EReady f src a :: h.
Proof. simpl. now rewrite <- app_assoc. Qed.

Lemma waiting_evs src a fs : forall h i,
  waiting (evs src a fs ++ h) i = filter (fun g => negb (existsb (Nat.eqb g) fs)) (waiting h i).
Proof.
  induction fs as [|f fs IH]; intros h i.
  - simpl. symmetry. apply filter_true. auto.
  - rewrite evs_cons, IH. simpl. rewrite filter_filter. apply filter_ext_in'. intros x _.
    now rewrite negb_orb.
Qed.

Lemma stat_evs_other src a fs : forall h f, ~ In f fs -> stat (evs src a fs ++ h) f = stat h f.
Proof.
  induction fs as [|g fs IH]; intros h f Hn; auto.
  rewrite evs_cons, IH by (intros X; apply Hn; now right). simpl.
  destruct (Nat.eqb_spec g f) as [->|]; auto. exfalso. apply Hn. now left.
Qed.

Lemma stat_evs src a fs : forall h f i tp, NoDup fs -> In f fs -> stat h f = Blocked i tp ->
  stat (evs src a fs ++ h) f = Ready i tp src.
Proof.
  induction fs as [|g fs IH]; intros h f i tp Hn Hi Hs; [destruct Hi|].
  rewrite evs_cons. inversion Hn; subst. destruct (Nat.eq_dec g f) as [->|Hne].
  - rewrite stat_evs_other by auto. simpl. now rewrite Nat.eqb_refl, Hs.
  - destruct Hi as [->|Hi]; [congruence|]. apply IH; auto. simpl.
    now rewrite (proj2 (Nat.eqb_neq g f) Hne).
Qed.

Lemma disc_evs src a fs : forall h, NoDup fs -> discipline h ->
  (forall f, In f fs -> exists i tp, stat h f = Blocked i tp /\
     match src with ByNotify j => j = i | ByTimer => exists t, tp = Some t /\ t <= a end) ->
  discipline (evs src a fs ++ h).
Proof.
  induction fs as [|f fs IH]; intros h Hn Hd Hb; auto. rewrite evs_cons. inversion Hn; subst.
  apply IH; auto.
  - simpl. split; auto. apply Hb. now left.
  - intros g Hg. simpl. destruct (Nat.eqb_spec f g) as [->|]; [contradiction|]. apply Hb. now right.
Qed.

(** A set [fs] of fibers is made ready: their entries become stale, all else is unchanged. *)
Lemma winv_ready s k' qs' src fs :
  WInv s -> KInv k' qs' (fun f => wst (pcs s f)) ->
  NoDup fs -> now k' = now (kn s) ->
  (forall f, In f fs -> xblocked (fib (kn s) f) /\ xrunnable (fib k' f)) ->
  (forall f, ~ In f fs -> fib k' f = fib (kn s) f) ->
  (forall f, In f fs -> epoch (fib k' f) = S (epoch (fib (kn s) f))) ->
  (forall j, exists q1, qs s j = q1 ++ qs' j /\ forall f e, In (f, e) q1 -> live (kn s) (f, e) = true -> In f fs) ->
  (forall f, In f fs -> match src with
     | ByNotify i => exists e, In (f, e) (qs s i)
     | ByTimer => exists i tp e, pcs s f = InWaitUntil i tp e /\ tp <= now (kn s) end) ->
  WInv (mkState k' qs' (pcs s) (evs src (now k') fs ++ log s)).
Proof.
  intros [] K Hn Hnow Hfs Hoth Hep Hq Hsrc.
  assert (Hst : forall f, In f fs -> exists i tp, stat (log s) f = Blocked i tp /\
     match src with ByNotify j => j = i | ByTimer => exists t, tp = Some t /\ t <= now k' end).
  { intros f Hf. destruct (Hfs f Hf) as [Hb _]. pose proof (w_stat0 f) as St. specialize (Hsrc f Hf).
    destruct src as [i|].
    - destruct Hsrc as (e & Hi). pose proof (proj2 (ki_q _ _ _ w_k0 i) _ _ Hi) as W. cbv beta in W.
      destruct W as [W|[[tp W]|[tp W]]]; destruct (pcs s f) eqn:Ep; simpl in W; inversion W; subst; simpl in St.
      + destruct St as [[_ St]|[[R|R] _]]; [eauto|destruct Hb; congruence..].
      + destruct St as [[_ St]|[[R|R] _]]; [eauto|destruct Hb; congruence..].
      + destruct (blocked_live _ _ _ _ w_k0 Hb) as (j & _ & [X|[tq X]]); cbv beta in X; rewrite Ep in X; discriminate.
    - destruct Hsrc as (i & tp & e & Hp & Ht). rewrite Hp in St. simpl in St.
      destruct St as [[_ St]|[[R|R] _]]; [|destruct Hb; congruence..].
      exists i, (Some tp). split; auto. exists tp. split; auto. lia. }
  constructor; simpl; auto.
  - intros i. rewrite waiting_evs, w_wait0. destruct (Hq i) as (q1 & E & Hl). rewrite E.
    rewrite filter_app, map_app, filter_app.
    match goal with |- ?a ++ ?b = ?c => assert (a = []) as -> end.
    { apply filter_none. intros f Hf. apply in_map_iff in Hf. destruct Hf as ([g e] & Eg & Hg). simpl in Eg. subst g.
      apply filter_In in Hg. destruct Hg as [Hg1 Hg2]. apply negb_false_iff. apply existsb_exists.
      exists f. split; [eapply Hl; eauto|apply Nat.eqb_refl]. }
    simpl. rewrite filter_map, filter_filter. f_equal. apply filter_ext_in'. intros [g e] Hg. simpl.
    destruct (existsb (Nat.eqb g) fs) eqn:Eg.
    + apply existsb_exists in Eg. destruct Eg as (g' & Hg' & Eg). apply Nat.eqb_eq in Eg. subst g'.
      rewrite andb_false_r. symmetry. unfold live. simpl. apply Nat.eqb_neq. rewrite (Hep g Hg').
      assert (Hin : In (g, e) (qs s i)) by (rewrite E; apply in_app_iff; auto).
      pose proof (proj2 (live_in_queue _ _ _ _ _ _ w_k0 Hin) (proj1 (Hfs g Hg'))) as L. apply live_spec in L. lia.
    + rewrite andb_true_r. unfold live. simpl. rewrite Hoth; auto. intros Hin.
      assert (existsb (Nat.eqb g) fs = true) by (apply existsb_exists; exists g; split; auto; apply Nat.eqb_refl).
      congruence.
  - intros f. destruct (in_dec Nat.eq_dec f fs) as [Hf|Hf].
    + destruct (Hst f Hf) as (i & tp & St & Hs2). destruct (Hfs f Hf) as [Hb Hr].
      rewrite (stat_evs src (now k') fs (log s) f i tp Hn Hf St).
      pose proof (w_stat0 f) as X. rewrite St in X. destruct (pcs s f) as [|i' e|i' tp' e|i' tp' e]; simpl in X |- *.
      * discriminate.
      * right. split; auto. destruct X as [[_ X]|[_ [j X]]]; [|discriminate]. inversion X; subst.
        destruct src as [j|]; [eauto|]. destruct Hs2 as (t & Ht & _). discriminate.
      * right. split; auto. destruct X as [[_ X]|[_ [j [X _]]]]; [|discriminate]. inversion X; subst.
        exists src. split; auto. intros ->. destruct Hs2 as (t & Ht & Ht2). inversion Ht; subst. auto.
      * destruct X as (src' & X & _). discriminate.
    + rewrite stat_evs_other by auto. specialize (w_stat0 f). unfold stat_ok in *. rewrite (Hoth f Hf), Hnow. exact w_stat0.
  - apply disc_evs; auto.
Qed.

Lemma flips_spec k k' fs qsx :
  NoDup qsx -> (forall f, In f fs <-> In f qsx /\ queued (fib k f) = false /\ queued (fib k' f) = true) ->
  forall f, In f (flips k k' qsx) <-> In f fs.
Proof.
  intros Hn H f. unfold flips. rewrite filter_In, H, andb_true_iff, negb_true_iff. tauto.
Qed.

Lemma winv_init : WInv init.
Proof.
  constructor; simpl; auto. apply kinv_init.
Qed.

Lemma winv_same_k s k' :
  WInv s -> KInv k' (qs s) (fun f => wst (pcs s f)) ->
  (forall f, epoch (fib k' f) = epoch (fib (kn s) f)) ->
  (forall f, xblocked (fib k' f) <-> xblocked (fib (kn s) f)) -> now (kn s) <= now k' ->
  WInv (mkState k' (qs s) (pcs s) (log s)).
Proof.
  intros [] K He Hb Hn. constructor; simpl; auto.
  - intros i. rewrite w_wait0. f_equal. apply filter_ext_in'. intros [f e] _. unfold live. simpl. now rewrite He.
  - intros f. specialize (w_stat0 f). specialize (Hb f).
    assert (X : xrunnable (fib (kn s) f) -> xrunnable (fib k' f)).
    { unfold xrunnable, xblocked in *. destruct (running (fib k' f)), (queued (fib k' f)); auto.
      destruct Hb as [Hb _]. destruct Hb; auto. intros [|]; congruence. }
    unfold stat_ok in *. destruct (pcs s f); auto.
    + destruct w_stat0 as [[A B]|[A B]]; [left|right]; split; auto. now apply Hb.
    + destruct w_stat0 as [[A B]|[A (src & B & C)]]; [left|right]; split; auto; [now apply Hb|].
      exists src. split; auto. intros E. specialize (C E). lia.
    + destruct w_stat0 as (src & A & B). exists src. split; auto. lia.
Qed.

Lemma kinv_pcw k qsx pcs0 f p w :
  KInv k qsx (upd (fun g => wst (pcs0 g)) f w) -> wst p = w -> KInv k qsx (fun g => wst (upd pcs0 f p g)).
Proof. intros H E. eapply KInv_ext; [exact H| |]; auto. intros g. cbv beta. upds; auto. Qed.

Lemma kstep_cases k l k' : kstep k l = Some k' ->
  ((forall f, epoch (fib k' f) = epoch (fib k f)) /\ (forall f, xblocked (fib k' f) <-> xblocked (fib k f)) /\
   (forall f, l = Timer f -> queued (fib k' f) = queued (fib k f))) \/
  (exists f, l = Timer f /\ (exists tp, sleep (fib k f) = Some (tp, epoch (fib k f)) /\ tp <= now k) /\
   epoch (fib k' f) = S (epoch (fib k f)) /\ queued (fib k' f) = true /\ running (fib k' f) = running (fib k f) /\ now k' = now k /\
   forall g, g <> f -> fib k' g = fib k g).
Proof.
  intros Hs. destruct l as [g t|g|d]; unfold kstep in Hs.
  - destruct (thr k t); [discriminate|]. destruct (queued (fib k g) && negb (running (fib k g))) eqn:E; [|discriminate].
    apply andb_true_iff in E. destruct E as [E _].
    inversion Hs; subst; simpl. left. splits; intros f; unfold xblocked; upds; simpl; try tauto; try congruence.
    split; intros [? ?]; congruence.
  - destruct (thr k (home (fib k g))); [discriminate|]. destruct (sleep (fib k g)) as [[tp e]|] eqn:Es; [|discriminate].
    destruct (Nat.leb tp (now k)) eqn:El; [|discriminate]. apply Nat.leb_le in El. inversion Hs; subst; clear Hs.
    unfold wake. simpl. updt. simpl. destruct (Nat.eqb_spec (epoch (fib k g)) e) as [E|E]; simpl.
    + right. exists g. updt. simpl. subst e. splits; eauto. intros h Hh. now updt.
    + left. splits; intros f; unfold xblocked; upds; simpl; try tauto; auto.
  - inversion Hs; subst; simpl. left. splits; auto; tauto.
Qed.

Lemma winv_step s l s' : WInv s -> step s l = Some s' -> WInv s'.
Proof.
  intros I Hs. pose proof I as I0. destruct I0.
  destruct l as [kl|f i|f i tp|f i|f i|f|f|f]; unfold step in Hs.
  - destruct (kstep (kn s) kl) as [k'|] eqn:Ek; [|discriminate]. inversion Hs; subst s'; clear Hs.
    pose proof (kinv_kstep _ _ _ _ _ w_k0 Ek) as K.
    destruct (kstep_cases _ _ _ Ek) as [(A & B & C)|(f & -> & (tp & Hsl & Htp) & He & Hq & Hr & Hn & Ho)].
    + assert ((match kl with Timer f => ready_events ByTimer (kn s) k' [f] | _ => [] end) = []) as ->.
      { destruct kl; auto. unfold ready_events, flips. simpl. rewrite (C _ eq_refl).
        now destruct (queued (fib (kn s) f)). }
      apply winv_same_k; auto. eapply kstep_now; eauto.
    + pose proof (ki_f _ _ _ w_k0 f) as F. unfold fok in F. destruct F as (_ & _ & F).
      destruct (pcs s f) as [|i e|i tp' e|i tp' e] eqn:Ep; simpl in F.
      * destruct F; congruence.
      * destruct F; congruence.
      * destruct F as [(Hb & E1 & E2 & E3)|(_ & E1 & [E2|E2] & _)]; [|congruence|rewrite Hsl in E2; inversion E2; lia].
        rewrite Hsl in E3. inversion E3; subst tp'.
        assert (ready_events ByTimer (kn s) k' [f] = evs ByTimer (now k') [f]) as ->.
        { unfold ready_events, flips. simpl. destruct Hb as [_ Hb]. rewrite Hb, Hq. reflexivity. }
        apply winv_ready; auto.
        -- constructor; [intros []|constructor].
        -- intros g [<-|[]]. split; auto. now right.
        -- intros g Hg. apply Ho. intros ->. apply Hg. now left.
        -- intros g [<-|[]]. auto.
        -- intros j. exists []. split; [auto|intros ? ? []].
        -- intros g [<-|[]]. exists i, tp, e. auto.
      * destruct F as (_ & _ & F & _). congruence.
  - destruct (pcs s f) eqn:Ep; try discriminate. destruct (running (fib (kn s) f)) eqn:Er; [|discriminate].
    destruct (suspend_and_wait (kn s) f (qs s i)) as [[k q] e] eqn:Es. inversion Hs; subst s'; clear Hs.
    assert (K := kinv_block (kn s) (qs s) _ f i k q e w_k0 ltac:(cbv beta; now rewrite Ep) Er Es).
    pose proof (fun j e' => wnone_no_entry _ _ _ f j e' w_k0 ltac:(cbv beta; now rewrite Ep)) as Hno.
    destruct (suspend_and_wait_facts _ _ _ _ _ _ _ _ w_k0 Er Es) as (Hfk & He & _ & Hb & Hq & Hn). clear Es.
    assert (Hl : forall j, filter (live k) (qs s j) = filter (live (kn s)) (qs s j)).
    { intros j. apply filter_ext_in'. intros [g e'] Hg. unfold live. simpl. rewrite Hfk; auto. intros ->. eapply Hno; eauto. }
    constructor; simpl.
    + eapply kinv_pcw; [exact K|reflexivity].
    + intros j. rewrite w_wait0. destruct (Nat.eqb_spec i j) as [->|Hne].
      * rewrite upd_same, Hq, filter_app, map_app, Hl. f_equal. simpl. unfold live. simpl.
        now rewrite (proj2 (Nat.eqb_eq _ _) He).
      * rewrite upd_other by auto. now rewrite Hl.
    + intros g. destruct (Nat.eq_dec g f) as [->|Hne].
      * updt. rewrite Nat.eqb_refl. simpl. left. split; auto.
      * rewrite (proj2 (Nat.eqb_neq f g)) by auto. updt. specialize (w_stat0 g). unfold stat_ok in *. rewrite (Hfk g Hne), Hn. exact w_stat0.
    + split; auto. specialize (w_stat0 f). rewrite Ep in w_stat0. exact w_stat0.
  - destruct (pcs s f) eqn:Ep; try discriminate. destruct (running (fib (kn s) f)) eqn:Er; [|discriminate].
    destruct (suspend_and_wait_until (kn s) f (qs s i) tp) as [[k q] e] eqn:Es. inversion Hs; subst s'; clear Hs.
    assert (K := kinv_block_until (kn s) (qs s) _ f i tp k q e w_k0 ltac:(cbv beta; now rewrite Ep) Er Es).
    pose proof (fun j e' => wnone_no_entry _ _ _ f j e' w_k0 ltac:(cbv beta; now rewrite Ep)) as Hno.
    destruct (suspend_and_wait_until_facts _ _ _ _ _ _ _ _ _ w_k0 Er Es) as (Hfk & He & _ & Hb & Hq & Hn). clear Es.
    assert (Hl : forall j, filter (live k) (qs s j) = filter (live (kn s)) (qs s j)).
    { intros j. apply filter_ext_in'. intros [g e'] Hg. unfold live. simpl. rewrite Hfk; auto. intros ->. eapply Hno; eauto. }
    constructor; simpl.
    + eapply kinv_pcw; [exact K|reflexivity].
    + intros j. rewrite w_wait0. destruct (Nat.eqb_spec i j) as [->|Hne].
      * rewrite upd_same, Hq, filter_app, map_app, Hl. f_equal. simpl. unfold live. simpl.
        now rewrite (proj2 (Nat.eqb_eq _ _) He).
      * rewrite upd_other by auto. now rewrite Hl.
    + intros g. destruct (Nat.eq_dec g f) as [->|Hne].
      * updt. rewrite Nat.eqb_refl. simpl. left. split; auto.
      * rewrite (proj2 (Nat.eqb_neq f g)) by auto. updt. specialize (w_stat0 g). unfold stat_ok in *. rewrite (Hfk g Hne), Hn. exact w_stat0.
    + split; auto. specialize (w_stat0 f). rewrite Ep in w_stat0. exact w_stat0.
  - destruct (pcs s f) eqn:Ep; try discriminate. destruct (running (fib (kn s) f)) eqn:Er; [|discriminate].
    destruct (notify_one (kn s) (qs s i)) as [k q] eqn:En. inversion Hs; subst s'; clear Hs.
    destruct (notify_one_inv i (qs s i) (kn s) (qs s) _ k q w_k0 eq_refl En) as (K & N1 & _ & _ & N4).
    pose proof (kinv_nodup_fst _ _ _ i w_k0) as Hnd.
    destruct (notify_one_split _ _ _ _ En) as [(q1 & g & e & Hq & Hst & Hli & ->)|(Hst & -> & ->)].
    + assert (Hin : In (g, e) (qs s i)) by (rewrite Hq; apply in_app_iff; right; now left).
      pose proof (proj1 (live_in_queue _ _ _ _ _ _ w_k0 Hin) Hli) as Hb.
      rewrite (wake_fib _ _ _ Hli) in *. simpl in *. pose proof Hli as Hli'. apply live_spec in Hli'.
      match goal with |- WInv (mkState ?k _ _ _) => set (k' := k) in * end.
      assert (Hfl : flips (kn s) k' (map fst (qs s i)) = [g]).
      { unfold flips. rewrite <- (filter_eq_single g (map fst (qs s i)) Hnd) by (apply in_map_iff; now exists (g, e)).
        apply filter_ext_in'. intros x _. unfold k'. simpl. destruct (Nat.eqb_spec x g) as [->|Hne].
        - updt. simpl. destruct Hb as [_ Hb]. now rewrite Hb.
        - updt. now destruct (queued (fib (kn s) x)). }
      unfold ready_events. rewrite Hfl.
      apply (winv_ready s k' (upd (qs s) i q) (ByNotify i) [g]); auto.
      * constructor; [intros []|constructor].
      * intros x [<-|[]]. split; auto. unfold k'. simpl. updt. now right.
      * intros x Hx. unfold k'. simpl. rewrite upd_other; auto. intros ->. apply Hx. now left.
      * intros x [<-|[]]. unfold k'. simpl. updt. simpl. congruence.
      * intros j. destruct (Nat.eq_dec j i) as [->|Hne]; updt.
        -- exists (q1 ++ [(g, e)]). rewrite <- app_assoc. split; auto. intros x d Hx Hl.
           apply in_app_iff in Hx. destruct Hx as [Hx|[Hx|[]]]; [rewrite (Hst _ Hx) in Hl; discriminate|].
           inversion Hx; subst. now left.
        -- exists []. split; [auto|intros ? ? []].
      * intros x [<-|[]]. eauto.
    + assert (flips (kn s) (kn s) (map fst (qs s i)) = []) as E.
      { apply filter_none. intros x _. now destruct (queued (fib (kn s) x)). }
      apply (winv_ready s (kn s) (upd (qs s) i []) (ByNotify i) []) in I; auto.
      * unfold ready_events. rewrite E. exact I.
      * constructor.
      * intros ? [].
      * intros ? [].
      * intros j. destruct (Nat.eq_dec j i) as [->|Hne]; updt.
        -- exists (qs s i). rewrite app_nil_r. split; auto. intros x d Hx Hl. rewrite (Hst _ Hx) in Hl. discriminate.
        -- exists []. split; [auto|intros ? ? []].
      * intros ? [].
  - destruct (pcs s f) eqn:Ep; try discriminate. destruct (running (fib (kn s) f)) eqn:Er; [|discriminate].
    destruct (notify_all (kn s) (qs s i)) as [k q] eqn:En. inversion Hs; subst s'; clear Hs.
    destruct (notify_all_inv i (qs s i) (kn s) (qs s) _ k q w_k0 eq_refl En) as (K & -> & N1 & _ & N4 & N5).
    pose proof (kinv_nodup_fst _ _ _ i w_k0) as Hnd.
    assert (Hfl : flips (kn s) k (map fst (qs s i)) = map fst (filter (live (kn s)) (qs s i))).
    { unfold flips. rewrite filter_map. f_equal. apply filter_ext_in'. intros [g e] Hg. simpl.
      destruct (live (kn s) (g, e)) eqn:El.
      - apply live_spec in El. subst e. destruct (N4 _ Hg) as [[_ Hb] Hf]. now rewrite Hb, Hf.
      - rewrite N5; [now destruct (queued (fib (kn s) g))|].
        intros Hg'. assert (e = epoch (fib (kn s) g)) by (eapply (kinv_entry_det (kn s) (qs s)); eauto).
        subst e. unfold live in El. simpl in El. rewrite Nat.eqb_refl in El. discriminate. }
    unfold ready_events. rewrite Hfl.
    assert (Hfs : forall g, In g (map fst (filter (live (kn s)) (qs s i))) <-> In (g, epoch (fib (kn s) g)) (qs s i)).
    { intros g. rewrite in_map_iff. split.
      - intros ([g' e] & E & Hg). simpl in E. subst g'. apply filter_In in Hg. destruct Hg as [Hg Hl].
        apply live_spec in Hl. now rewrite Hl.
      - intros Hg. eexists. split; [|apply filter_In; split; [exact Hg|now apply live_spec]]. reflexivity. }
    apply (winv_ready s k (upd (qs s) i []) (ByNotify i)); auto.
    + clear - Hnd. revert Hnd. generalize (qs s i). intros l. induction l as [|[g e] l IH]; simpl; intros Hn; [constructor|].
      inversion Hn; subst. destruct (live (kn s) (g, e)); simpl; auto. constructor; auto.
      intros Hi. apply H1. apply in_map_iff in Hi. destruct Hi as (x & E & Hx). apply filter_In in Hx.
      apply in_map_iff. exists x. tauto.
    + intros g Hg. apply Hfs in Hg. destruct (N4 _ Hg) as [A B]. split; auto. rewrite B. now right.
    + intros g Hg. apply N5. intros X. apply Hg. now apply Hfs.
    + intros g Hg. apply Hfs in Hg. destruct (N4 _ Hg) as [A B]. now rewrite B.
    + intros j. destruct (Nat.eq_dec j i) as [->|Hne]; updt.
      * exists (qs s i). rewrite app_nil_r. split; auto. intros x d Hx Hl. apply Hfs. apply live_spec in Hl. now rewrite Hl.
      * exists []. split; [auto|intros ? ? []].
    + intros g Hg. apply Hfs in Hg. eauto.
  - destruct (running (fib (kn s) f)) eqn:Er; [|discriminate].
    destruct (pcs s f) as [|i e|i tp e|i tp e] eqn:Ep; [discriminate| | |].
    + inversion Hs; subst s'; clear Hs.
      destruct (kinv_resume _ _ _ f i e w_k0 Er ltac:(cbv beta; now rewrite Ep)) as [L K].
      constructor; simpl; auto.
      * unfold suspend_and_wait_end. rewrite L. eapply kinv_kassert; auto. eapply kinv_pcw; [exact K|reflexivity].
      * intros g. destruct (Nat.eqb_spec f g) as [->|Hne]; updt; simpl; auto.
        specialize (w_stat0 g). unfold stat_ok in *. exact w_stat0.
      * split; auto. specialize (w_stat0 f). rewrite Ep in w_stat0. simpl in w_stat0.
        destruct w_stat0 as [[[A _] _]|[_ [j A]]]; [congruence|]. exists i, None, (ByNotify j). eauto.
    + pose proof (w_stat0 f) as St. rewrite Ep in St. simpl in St.
      destruct St as [[[A _] _]|[_ (src & A & B)]]; [congruence|].
      destruct (wait_until_result (kn s) tp) eqn:Ew; inversion Hs; subst s'; clear Hs.
      * pose proof (kinv_resume_until _ _ _ f i tp e w_k0 Er ltac:(cbv beta; now rewrite Ep) Ew) as K.
        constructor; simpl; auto.
        -- eapply kinv_pcw; [exact K|reflexivity].
        -- intros g. destruct (Nat.eqb_spec f g) as [->|Hne]; updt; simpl; auto.
        -- split; auto. exists i, (Some tp), src. split; auto. destruct src as [j|]; [eauto|].
           specialize (B eq_refl). unfold wait_until_result in Ew. apply Nat.ltb_lt in Ew. lia.
      * pose proof (kinv_timeout _ _ _ f i tp e w_k0 Er ltac:(cbv beta; now rewrite Ep) Ew) as K.
        constructor; simpl; auto.
        -- eapply kinv_pcw; [exact K|reflexivity].
        -- intros g. destruct (Nat.eq_dec g f) as [->|Hne]; updt; auto.
           simpl. exists src. split; auto. unfold wait_until_result in Ew. apply Nat.ltb_ge in Ew. auto.
    + inversion Hs; subst s'; clear Hs.
      pose proof (kinv_relock _ _ _ f i tp e w_k0 Er ltac:(cbv beta; now rewrite Ep)) as K.
      pose proof (w_stat0 f) as St. rewrite Ep in St. simpl in St. destruct St as (src & A & B).
      pose proof (ki_f _ _ _ w_k0 f) as F. unfold fok in F. cbv beta in F. rewrite Ep in F. simpl in F.
      destruct F as (_ & _ & _ & F & _).
      constructor; simpl; auto.
      * eapply kinv_pcw; [exact K|reflexivity].
      * intros j. rewrite w_wait0. f_equal. destruct (Nat.eq_dec j i) as [->|Hne]; updt; auto.
        destruct (is_linked (qs s i) (f, e)); auto. unfold wq_remove. rewrite filter_filter.
        apply filter_ext_in'. intros [g d] Hg. unfold live, waker_eqb. simpl.
        destruct (Nat.eqb_spec g f) as [->|]; simpl; auto. destruct (Nat.eqb_spec d e) as [->|]; simpl; auto.
        apply Nat.eqb_neq. lia.
      * intros g. destruct (Nat.eqb_spec f g) as [->|Hne]; updt; simpl; auto.
      * split; auto. exists i, (Some tp), src. split; eauto.
  - destruct (pcs s f) eqn:Ep; try discriminate. destruct (running (fib (kn s) f)) eqn:Er; [|discriminate].
    inversion Hs; subst s'; clear Hs. apply winv_same_k; auto.
    + apply kinv_yield; auto.
    + intros g. unfold yield. simpl. upds; auto.
    + intros g. unfold yield, xblocked. simpl. upds; simpl; [|tauto]. split; intros [? ?]; congruence.
  - destruct (pcs s f) eqn:Ep; try discriminate. destruct (running (fib (kn s) f)) eqn:Er; [|discriminate].
    inversion Hs; subst s'; clear Hs. apply winv_same_k; auto.
    + apply kinv_yield; auto.
    + intros g. unfold yield. simpl. upds; auto.
    + intros g. unfold yield, xblocked. simpl. upds; simpl; [|tauto]. split; intros [? ?]; congruence.
Qed.

Lemma winv_reachable s : reachable step init s -> WInv s.
Proof. apply reachable_inv; [apply winv_init|apply winv_step]. Qed.
