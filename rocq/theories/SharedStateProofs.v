From Coq Require Import List Arith Bool Lia.
From Verif Require Import Base Kernel KernelFacts CondVar CondVarSpec CondVarProofs CondVarProps Client ClientProofs PredWaitProps SharedState SharedStateSpec.
Import ListNotations.

Section Proofs.
Context {V E : Type}.
Notation state := (sstate V E).
Notation event := (cevent (sop V E) (sres V E) (sx V E)).
Notation ss := (shared_state V E).

Definition s_op (p : spc V E) : op :=
  match p with PLock _ => Lock | PWait _ => Wait | PWaitT tp => WaitUntil tp | PUnlock _ | PUnlockGet | PUnlockN => Unlock | PNotify => NotifyAll end.
Definition s_hold (p : spc V E) : bool := match p with PLock _ | PNotify => false | _ => true end.

Lemma ss_wb : wellbehaved ss s_op s_hold.
Proof.
  constructor.
  - intros d o d' xs o' p H. inversion H; subst. auto.
  - intros d p r d' xs o' p' Hr H. destruct r; [| |congruence]; destruct p as [o|o|tp|r0| | |]; simpl in H; unfold locked, mark_ready, wait_loop, finish in H;
      repeat match type of H with context [match ?x with _ => _ end] => destruct x end; inversion H; subst; auto.
  - intros d p r d' xs r' Hr H. destruct r; [| |congruence]; destruct p as [o|o|tp|r0| | |]; simpl in H; unfold locked, mark_ready, wait_loop, finish in H;
      repeat match type of H with context [match ?x with _ => _ end] => destruct x end; inversion H; subst; auto.
  - intros []; simpl; auto.
Qed.

Definition reader (o : sop V E) : Prop := match o with Get | GetExc | WaitS => True | _ => False end.

(** Data against log. *)
Definition dat_ok (d : sdata V E) (h : list event) : Prop :=
  match stored h with
  | None => ready d = false /\ except d = None /\ storage d = None
  | Some (OVal v) => ready d = true /\ except d = None /\ storage d = Some v
  | Some (OExc x) => ready d = true /\ except d = x /\ storage d = None
  end.

Definition pk (h : list event) (t : nat) (f : fid) (x : option (spc V E)) : Prop :=
  match x with
  | None => spend h f = None
  | Some p => exists o, spend h f = Some o /\
    match p with
    | PLock o' => o' = o /\ my_store h f = false
    | PWait o' => o' = o /\ reader o
    | PWaitT tp => o = WaitUntilS tp /\ stored_at_call h f = None
    | PUnlock r => ret_ok h f o r t
    | PUnlockGet => o = Get /\ ((exists v, stored h = Some (OVal v)) \/ stored h = Some (OExc None))
    | PUnlockN | PNotify => outcome_of o <> None /\ my_store h f = true /\ stored h <> None
    end
  end.

Definition waiting (p : spc V E) : Prop := match p with PWait _ | PWaitT _ => True | _ => False end.
Definition served (s : state) : Prop :=
  forall f p, cpc s f = Some p -> waiting p -> pending (log (cv s)) f = Some (s_op p) -> woken (log (cv s)) f = false ->
  ready (dat s) = true ->
  (exists tp, p = PWaitT tp /\ tp <= now (kn (cv s))) \/
  exists g, g <> f /\
    ((cpc s g = Some PUnlockN /\ since_acq (log (cv s)) f = true) \/
     (cpc s g = Some PNotify /\ pending (log (cv s)) g = Some NotifyAll /\ after_acq (log (cv s)) f g = true)).

Record SI (s : state) : Prop := {
  s_dat : dat_ok (dat s) (clog s);
  s_pk : forall f, pk (clog s) (now (kn (cv s))) f (cpc s f);
  s_tmo : forall f tp, cpc s f = Some (PWaitT tp) -> pending (log (cv s)) f = None -> last_res (log (cv s)) f = RTimeout -> tp <= now (kn (cv s));
  s_srv : served s;
  s_log : shared_ok (clog s)
}.

Lemma ret_ok_time (h : list event) f o r t t' : t <= t' -> ret_ok h f o r t -> ret_ok h f o r t'.
Proof. intros Ht. destruct o; simpl; auto. intros [H|(A & B & C)]; auto. right. splits; auto. lia. Qed.
Lemma pk_time (h : list event) t t' f x : t <= t' -> pk h t f x -> pk h t' f x.
Proof.
  intros Ht. destruct x as [p|]; simpl; auto. intros (o & A & B). exists o. split; auto. destruct p; auto. eapply ret_ok_time; eauto.
Qed.

(** Events of another fiber. *)
Definition stale (e : event) (g : fid) : Prop := match e with CCall f _ | CRet f _ _ => f <> g | CX f _ => f <> g end.
Lemma stale_spend (e : event) g h : stale e g -> spend (e :: h) g = spend h g.
Proof. destruct e as [f o|f r a|f x]; simpl; auto; intros H; now rewrite (proj2 (Nat.eqb_neq f g)). Qed.
Lemma stale_my (e : event) g h : stale e g -> my_store (e :: h) g = my_store h g.
Proof. destruct e as [f o|f r a|f x]; simpl; auto; intros H; now rewrite (proj2 (Nat.eqb_neq f g)). Qed.
Lemma stale_at (e : event) g h : stale e g -> stored_at_call (e :: h) g = stored_at_call h g.
Proof. destruct e as [f o|f r a|f x]; simpl; auto; intros H; now rewrite (proj2 (Nat.eqb_neq f g)). Qed.
Lemma stored_mono (e : event) h x : stored h = Some x -> stored (e :: h) = Some x.
Proof. destruct e as [f o|f r a|f [y]]; simpl; auto. intros ->. auto. Qed.
Lemma stored_mono' (e : event) h : stored h <> None -> stored (e :: h) <> None.
Proof. destruct (stored h) eqn:X; [|congruence]. intros _. erewrite stored_mono; eauto. discriminate. Qed.
Lemma ret_ok_stale (e : event) h f o r t : stale e f -> ret_ok h f o r t -> ret_ok (e :: h) f o r t.
Proof.
  intros Se. unfold ret_ok. rewrite (stale_my _ _ _ Se), (stale_at _ _ _ Se).
  destruct o; intros H.
  - destruct H as [H|(A & B & C)]; auto. right. splits; auto. now apply stored_mono'.
  - destruct H as [H|(A & B & C)]; auto. right. splits; auto. now apply stored_mono'.
  - destruct H. split; auto. now apply stored_mono'.
  - destruct H as (x & A & B). exists x. split; auto. now apply stored_mono.
  - destruct H as (x & A & B). exists x. split; auto. now apply stored_mono.
  - destruct H. split; auto. now apply stored_mono'.
  - destruct H as [[A B]|H]; auto. left. split; auto. now apply stored_mono'.
Qed.
Lemma pk_stale (e : event) h t f x : stale e f -> pk h t f x -> pk (e :: h) t f x.
Proof.
  intros Se. destruct x as [p|]; unfold pk; rewrite (stale_spend _ _ _ Se); auto.
  intros (o & A & B). exists o. split; auto. destruct p; rewrite ?(stale_my _ _ _ Se), ?(stale_at _ _ _ Se); auto.
  - now apply ret_ok_stale.
  - destruct B as (B & C). split; auto. destruct C as [(v & C)|C]; [left; exists v|right]; now apply stored_mono.
  - destruct B as (B & C & D). splits; auto. now apply stored_mono'.
  - destruct B as (B & C & D). splits; auto. now apply stored_mono'.
Qed.

Lemma dat_ready (d : sdata V E) h : dat_ok d h -> ready d = true <-> stored h <> None.
Proof. unfold dat_ok. destruct (stored h) as [[v|x]|]; intros (A & _); rewrite A; split; congruence. Qed.

Lemma si_init : SI (@sinit V E).
Proof. constructor; simpl; auto; try discriminate. unfold dat_ok. simpl. auto. Qed.

Lemma served_call (s s' : state) x o : served s ->
  log (cv s') = ECall x o :: log (cv s) -> dat s' = dat s -> now (kn (cv s')) = now (kn (cv s)) ->
  (forall g, g <> x -> cpc s' g = cpc s g) ->
  (cpc s x = Some PUnlockN -> cpc s' x = Some PNotify /\ o = NotifyAll) ->
  (forall p, cpc s' x = Some p -> waiting p -> ready (dat s) = false) ->
  pending (log (cv s)) x = None ->
  served s'.
Proof.
  intros S El Ed En Ec Ex Ew Hx f p Hf Hw Hp Hk Hc. rewrite Ed in Hc. rewrite El in Hp, Hk. simpl in Hp, Hk.
  destruct (Nat.eq_dec f x) as [->|Hne]; [exfalso; specialize (Ew _ Hf Hw); congruence|].
  rewrite (proj2 (Nat.eqb_neq x f)) in Hp, Hk by auto. rewrite Ec in Hf by auto. rewrite En.
  destruct (S f p Hf Hw Hp Hk Hc) as [T|(g & Hg & [(G1 & G2)|(G1 & G2 & G3)])]; [left; auto|right; exists g; split; auto; rewrite El; simpl..].
  - destruct (Nat.eq_dec g x) as [->|Hgx].
    + right. destruct (Ex G1) as [Y ->]. rewrite Nat.eqb_refl. auto.
    + left. rewrite (proj2 (Nat.eqb_neq x f)) by auto. rewrite Ec; auto.
  - right. destruct (Nat.eq_dec g x) as [->|Hgx]; [congruence|].
    rewrite (proj2 (Nat.eqb_neq x g)), (proj2 (Nat.eqb_neq x f)) by auto. rewrite Ec; auto.
Qed.

Lemma served_cv (s : state) v l : served s -> CInv (cv s) -> CInv v -> CondVar.step (cv s) l = Some v ->
  (forall f o, l <> LCall f o) -> (forall f, fstat s_op s_hold (log (cv s)) f (cpc s f)) ->
  served (mkC v (dat s) (cpc s) (clog s)).
Proof.
  intros S I I' Hs Hl Fs f p Hf Hw Hp Hk Hc. simpl in *. pose proof (cv_now _ _ _ I Hs) as Hn.
  destruct (cv_step_log _ _ _ I Hs Hl) as [Eq|(x & o & r & fs & El & Eq & Hx & _)].
  - rewrite Eq in *. destruct (S f p Hf Hw Hp Hk Hc) as [(tp & T1 & T2)|T]; auto. left. exists tp. split; auto. lia.
  - pose proof (c_log _ I') as L. rewrite Eq in L, Hp, Hk. simpl in Hp, Hk. destruct (Nat.eqb_spec x f) as [|Hne]; [discriminate|].
    rewrite wevs_pending in Hp.
    assert (Hk0 : woken (log (cv s)) f = false).
    { destruct (in_dec Nat.eq_dec f fs) as [Hi|Hi]; [rewrite wevs_woken in Hk; auto; discriminate|rewrite wevs_woken_other in Hk; auto]. }
    destruct (S f p Hf Hw Hp Hk0 Hc) as [(tp & T1 & T2)|(g & Hg & [(G1 & G2)|(G1 & G2 & G3)])].
    + left. exists tp. split; auto. lia.
    + right. exists g; split; auto; rewrite Eq; simpl. left. split; auto. rewrite wevs_since. destruct (negb (Nat.eqb x f) && acquires o r); auto.
    + destruct (Nat.eq_dec x g) as [->|Hxg].
      2: right; exists g; split; auto; right; rewrite Eq; simpl; rewrite (proj2 (Nat.eqb_neq x g)), wevs_pending, wevs_after by auto; auto.
      rewrite Hx in G2. inversion G2; subst o. simpl in L. destruct L as [[_ L] _].
      destruct (L f (s_op p)) as [X|X]; rewrite ?wevs_pending, ?wevs_called, ?wevs_after; auto.
      * destruct p; simpl in *; auto; contradiction.
      * specialize (Fs f). rewrite Hf in Fs. simpl in Fs. destruct Fs as [(_ & F & _)|(F & _)]; [|congruence].
        rewrite F. destruct p; simpl in *; auto; contradiction.
      * congruence.
      * left. destruct p as [| |tp| | | |]; simpl in X; try contradiction. exists tp. split; auto. lia.
Qed.

(** The step of a fiber that makes its next call. *)
Lemma si_call (s : state) f d xs o p v ev : SI s -> CInv (cv s) -> (forall g, fstat s_op s_hold (log (cv s)) g (cpc s g)) ->
  CondVar.step (cv s) (LCall f o) = Some v ->
  (xs = [] /\ d = dat s \/ exists x, xs = [XStore x]) ->
  ev = [] \/ (exists o', ev = [CCall f o']) ->
  forall h, h = map (CX f) xs ++ ev ++ clog s ->
  dat_ok d h -> pk h (now (kn (cv s))) f (Some p) -> shared_ok h -> o = s_op p ->
  served (mkC v d (upd (cpc s) f (Some p)) h) ->
  SI (mkC v d (upd (cpc s) f (Some p)) h).
Proof.
  intros [D P T S L] I Fs Ev Hxs Hev h Hh D' P' L' Ho S'. pose proof (call_shape _ _ _ _ Ev) as (Ei & _ & Hv).
  constructor; simpl; auto.
  - intros g. subst v. simpl. destruct (Nat.eq_dec g f) as [->|Hne]; updt; auto.
    subst h. assert (G : pk (ev ++ clog s) (now (kn (cv s))) g (cpc s g)).
    { destruct Hev as [->|(o' & ->)]; simpl; auto. apply pk_stale; simpl; auto. }
    destruct Hxs as [[-> _]|(x & ->)]; simpl; auto. apply pk_stale; simpl; auto.
  - subst v. simpl. intros g tp. destruct (Nat.eqb_spec f g) as [->|Hne]; [updt; intros _ X; discriminate|].
    rewrite (upd_other _ f _ g) by auto. intros Hg. apply T; auto.
Qed.

Lemma wl_cases (d : sdata V E) o : (forall v, o <> SetValue v) -> (forall x, o <> SetExc x) -> o <> OwnerDestroyed ->
  (ready d = true /\ wait_loop d o = finish d o) \/
  (ready d = false /\ exists tp, o = WaitUntilS tp /\ wait_loop d o = ACall (WaitUntil tp) (PWaitT tp)) \/
  (ready d = false /\ reader o /\ wait_loop d o = ACall Wait (PWait o)).
Proof.
  intros H1 H2 H3. unfold wait_loop. destruct (ready d); auto. right. destruct o; simpl; eauto; congruence.
Qed.

(** Where a reader goes when the outcome is stored. *)
Lemma finish_pk d (h : list event) t f o : dat_ok d h -> ready d = true -> spend h f = Some o ->
  (forall v, o <> SetValue v) -> (forall x, o <> SetExc x) -> o <> OwnerDestroyed ->
  exists p, finish d o = ACall Unlock p /\ s_op p = Unlock /\ s_hold p = true /\ ~ waiting p /\ p <> PUnlockN /\ pk h t f (Some p).
Proof.
  intros D R Hs H1 H2 H3. assert (Hst : stored h <> None) by (eapply dat_ready; eauto).
  unfold dat_ok in D. unfold finish.
  destruct o as [v|x| | | | |tp]; try (exfalso; eapply H1; reflexivity); try (exfalso; eapply H2; reflexivity); try congruence.
  - destruct (stored h) as [[v|[x|]]|] eqn:Es; [| | |congruence]; destruct D as (_ & D & _); rewrite D; eexists; splits; eauto; try discriminate; simpl; auto.
    + exists Get. splits; eauto.
    + exists Get. splits; eauto. simpl. eauto.
    + exists Get. splits; eauto.
  - eexists. splits; eauto; try discriminate; simpl; auto. exists GetExc. split; auto. simpl.
    destruct (stored h) as [[v|x]|]; [| |congruence]; destruct D as (_ & D & _); rewrite D; eauto.
  - eexists. splits; eauto; try discriminate; simpl; auto. exists WaitS. split; auto. simpl. auto.
  - eexists. splits; eauto; try discriminate; simpl; auto. exists (WaitUntilS tp). split; auto. simpl. auto.
Qed.

Theorem si_step (s : state) l s' : reachable sstep sinit s -> SI s -> sstep s l = Some s' -> SI s'.
Proof.
  intros R0 SIs Hs. pose proof (cinv_reachable _ (proj_reachable _ _ R0)) as I.
  pose proof (fstat_reachable _ _ _ ss_wb s R0) as F. pose proof SIs as [D P T S L].
  unfold sstep, cstep in Hs. destruct l as [f o|f|l].
  - destruct (cpc s f) eqn:Ec; [discriminate|]. destruct (can_go s f) eqn:Eg; [|discriminate].
    unfold begin, shared_state, do_act in Hs. destruct (CondVar.step (cv s) (LCall f Lock)) as [v|] eqn:Ev; [|discriminate].
    inversion Hs; subst s'; clear Hs. pose proof (call_shape _ _ _ _ Ev) as (Ei & _ & Hv).
    pose proof (P f) as Pf. rewrite Ec in Pf. simpl in Pf.
    eapply (si_call s f (dat s) [] Lock (PLock o) v [CCall f o]); eauto; simpl; auto.
    + exists o. rewrite Nat.eqb_refl. auto.
    + eapply (served_call s _ f Lock); simpl; auto.
      * subst v. reflexivity.
      * subst v. reflexivity.
      * intros g Hne. now updt.
      * congruence.
      * intros p. updt. intros X; inversion X; subst. intros [].
      * apply pend_idle; auto.
  - destruct (cpc s f) as [p|] eqn:Ec; [|discriminate]. destruct (can_go s f) eqn:Eg; [|discriminate].
    apply can_go_spec in Eg. destruct Eg as [Er Ei]. pose proof (pend_idle _ _ I Ei) as Hpi.
    pose proof (F f) as Ff. rewrite Ec in Ff. simpl in Ff. destruct Ff as [(Ff & _)|(F1 & F2 & F3 & F4)]; [congruence|].
    pose proof (P f) as Pf. rewrite Ec in Pf. simpl in Pf. destruct Pf as (o & Po & Pf).
    (* calls without effect on the data *)
    assert (Call : forall o' p', do_act s f (dat s, [], ACall o' p') [] = Some s' -> o' = s_op p' ->
      (p = PUnlockN -> p' = PNotify) -> (waiting p' -> ready (dat s) = false) -> pk (clog s) (now (kn (cv s))) f (Some p') -> SI s').
    { intros o' p' Hd Ho Hn Hw Hk. unfold do_act in Hd. destruct (CondVar.step (cv s) (LCall f o')) as [v|] eqn:Ev; [|discriminate].
      inversion Hd; subst s'; clear Hd. pose proof (call_shape _ _ _ _ Ev) as (_ & _ & Hv).
      eapply (si_call s f (dat s) [] o' p' v []); eauto; simpl; auto.
      eapply (served_call s _ f o'); simpl; auto.
      - subst v. reflexivity.
      - subst v. reflexivity.
      - intros g Hne. now updt.
      - updt. rewrite Ec. intros X; inversion X. rewrite Hn; auto. rewrite Ho, Hn; auto.
      - intros q. updt. intros X; inversion X; subst; auto. }
    assert (Ret : forall r, do_act s f (dat s, [], ARet r) [] = Some s' -> p <> PUnlockN -> (p = PNotify -> pending (log (cv s)) f = None) ->
      ret_ok (clog s) f o r (now (kn (cv s))) -> SI s').
    { intros r Hd Hn Hn' Hr. unfold do_act in Hd. cbn [map app] in Hd. inversion Hd; subst s'; clear Hd.
      constructor; simpl; auto.
      - intros g. destruct (Nat.eq_dec g f) as [->|Hne]; updt; [simpl; now rewrite Nat.eqb_refl|]. apply pk_stale; simpl; auto.
      - intros g tp. destruct (Nat.eq_dec g f) as [->|Hne]; updt; [discriminate|]. apply T.
      - intros g q Hg Hw Hp Hk Hc. simpl in *. assert (g <> f) by (intros ->; rewrite upd_same in Hg; discriminate). updt.
        destruct (S g q Hg Hw Hp Hk Hc) as [X|(x & Hx & [(G1 & G2)|(G1 & G2 & G3)])]; auto; right; exists x; split; auto;
          assert (x <> f) by congruence; updt; auto.
      - split; auto. eauto. }
    (* the waiting loop *)
    assert (Loop : forall o', o' = o -> (forall v, o <> SetValue v) -> (forall x, o <> SetExc x) -> o <> OwnerDestroyed ->
      p <> PUnlockN -> (ready (dat s) = false -> stored_at_call (clog s) f = None) ->
      do_act s f (dat s, [], wait_loop (dat s) o') [] = Some s' -> SI s').
    { intros o' -> O1 O2 O3 Hpu Hat Hd. destruct (wl_cases (dat s) o O1 O2 O3) as [(W1 & W2)|[(W1 & tp & W2 & W3)|(W1 & W2 & W3)]].
      - destruct (finish_pk (dat s) (clog s) (now (kn (cv s))) f o D W1 Po O1 O2 O3) as (q & Q1 & Q2 & Q3 & Q4 & Q5 & Q6).
        rewrite W2, Q1 in Hd. eapply Call; eauto; congruence.
      - rewrite W3 in Hd. eapply Call; eauto; try congruence. simpl. exists o. splits; auto.
      - rewrite W3 in Hd. eapply Call; eauto; try congruence. simpl. exists o. splits; auto. }
    assert (At : ready (dat s) = false -> stored_at_call (clog s) f = None).
    { intros X. assert (stored (clog s) = None) as Y.
      { destruct (stored (clog s)) eqn:Y; auto. assert (ready (dat s) = true) by (eapply dat_ready; eauto; congruence). congruence. }
      clear - Y. revert Y. induction (clog s) as [|[g o|g r a|g [x]] h IH]; simpl; auto.
      - destruct (Nat.eqb g f); auto.
      - destruct (stored h); [discriminate|]. discriminate. }
    unfold cont, shared_state in Hs.
    destruct (last_res (log (cv s)) f) eqn:Elr; [| |congruence].
    + destruct p as [o'|o'|tp|r| | |]; unfold scont in Hs.
      * destruct Pf as [-> Pf]. unfold locked in Hs.
        assert (Store : forall x, outcome_of o = Some x -> ready (dat s) = false -> do_act s f (mark_ready (dat s) x) [] = Some s' -> SI s').
        { intros x Hx Hr Hd. unfold mark_ready, do_act in Hd. destruct (CondVar.step (cv s) (LCall f Unlock)) as [v|] eqn:Ev; [|destruct x; discriminate].
          assert (Hst : stored (clog s) = None).
          { destruct (stored (clog s)) eqn:Y; auto. assert (ready (dat s) = true) by (eapply dat_ready; eauto; congruence). congruence. }
          set (d := match x with OVal v0 => mkS true (except (dat s)) (Some v0) | OExc e => mkS true e (storage (dat s)) end) in Hd.
          cbn [map app] in Hd. inversion Hd; subst s'; clear Hd. pose proof (call_shape _ _ _ _ Ev) as (_ & _ & Hv).
          eapply (si_call s f d [XStore x] Unlock PUnlockN v []); eauto; simpl; auto.
          - unfold dat_ok in *. simpl. rewrite Hst in *. destruct D as (D1 & D2 & D3). subst d. destruct x; simpl; auto.
          - exists o. rewrite Nat.eqb_refl. splits; auto; try congruence. rewrite Hst. discriminate.
          - splits; eauto.
          - intros g q Hg Hw Hp Hk Hc. simpl in *. assert (g <> f) by (intros ->; rewrite upd_same in Hg; inversion Hg; subst q; contradiction). updt.
            subst v. simpl in Hp, Hk. rewrite (proj2 (Nat.eqb_neq f g)) in Hp, Hk by auto.
            right. exists f. split; auto. left. updt. split; auto. simpl. rewrite (proj2 (Nat.eqb_neq f g)) by auto.
            eapply (acq_later_reachable _ (proj_reachable _ _ R0) g f (s_op q)); auto.
            + specialize (F g). rewrite Hg in F. simpl in F. destruct F as [(_ & X & _)|(X & _)]; [|congruence]. rewrite X. destruct q; simpl in *; auto; contradiction.
            + destruct q; simpl in *; auto; contradiction. }
        destruct o as [v|x| | | | |tp].
        -- destruct (ready (dat s)) eqn:Er'; [|eapply Store; eauto; reflexivity].
           eapply Call; eauto; try congruence; try (intros []; fail). simpl. exists (SetValue v). split; auto. right. splits; auto. eapply dat_ready; eauto.
        -- destruct (ready (dat s)) eqn:Er'; [|eapply Store; eauto; reflexivity].
           eapply Call; eauto; try congruence; try (intros []; fail). simpl. exists (SetExc x). split; auto. right. splits; auto. eapply dat_ready; eauto.
        -- destruct (ready (dat s)) eqn:Er'; [|eapply Store; eauto; reflexivity].
           eapply Call; eauto; try congruence; try (intros []; fail). simpl. exists OwnerDestroyed. split; auto. simpl. splits; auto. eapply dat_ready; eauto.
        -- eapply Loop; eauto; congruence.
        -- eapply Loop; eauto; congruence.
        -- eapply Loop; eauto; congruence.
        -- eapply Loop; eauto; congruence.
      * destruct Pf as [-> Pf]. eapply Loop; eauto; try congruence; intros; intros ->; contradiction.
      * destruct Pf as [-> Pf]. eapply (Loop (WaitUntilS tp)); eauto; congruence.
      * eapply Ret; eauto; congruence.
      * destruct Pf as [-> Pf]. eapply Ret; eauto; try congruence. simpl. unfold dat_ok in D.
        destruct Pf as [(v & Pf)|Pf]; rewrite Pf in D; destruct D as (_ & _ & D); rewrite D; eauto.
      * eapply Call; eauto; try congruence; [intros []|]. simpl. exists o. splits; tauto.
      * destruct Pf as (Q1 & Q2 & Q3). eapply Ret; eauto; try congruence. destruct o; simpl in *; auto; congruence.
    + destruct (F4 eq_refl) as (tp & Ho). destruct p as [o'|o'|tp'|r| | |]; simpl in Ho; try discriminate. inversion Ho; subst tp'.
      destruct Pf as [-> Pf]. unfold scont in Hs. destruct (ready (dat s)) eqn:Er'.
      * destruct (finish_pk (dat s) (clog s) (now (kn (cv s))) f (WaitUntilS tp) D Er' Po) as (q & Q1 & Q2 & Q3 & Q4 & Q5 & Q6); try congruence.
        rewrite Q1 in Hs. eapply Call; eauto; congruence.
      * eapply Call; eauto; try congruence; try (intros []; fail). simpl. exists (WaitUntilS tp). split; auto. simpl. right. splits; auto.
        eapply T; eauto.
  - destruct (allowed s l) eqn:Ea; [|discriminate]. destruct (CondVar.step (cv s) l) as [v|] eqn:Ev; [|discriminate].
    inversion Hs; subst s'; clear Hs.
    assert (I' : CInv v) by (eapply cinv_step; eauto).
    assert (Hl : forall f o, l <> LCall f o) by (intros f o ->; discriminate).
    pose proof (cv_now _ _ _ I Ev) as Hn.
    constructor; simpl; auto.
    + intros f. eapply pk_time; eauto.
    + intros f tp Hf Hp Hr. destruct (cv_step_log _ _ _ I Ev Hl) as [Eq|(x & o & r & fs & El & Eq & Hx & _)].
      * rewrite Eq in Hp, Hr. specialize (T f tp Hf Hp Hr). lia.
      * rewrite Eq in Hp, Hr. simpl in Hp, Hr. rewrite wevs_pending in Hp. rewrite last_res_wevs in Hr. destruct (Nat.eqb_spec x f) as [->|Hne].
        -- subst r. specialize (F f). rewrite Hf in F. simpl in F. destruct F as [(F1 & _)|(F1 & _)]; [|congruence].
           assert (o = WaitUntil tp) by (simpl in F1; congruence). subst o. pose proof (c_log _ I') as L'. rewrite Eq in L'. simpl in L'. destruct L' as [L' _].
           assert (tp <= now (kn (cv s))) by (intuition discriminate). lia.
        -- specialize (T f tp Hf Hp Hr). lia.
    + eapply served_cv; eauto.
Qed.

Lemma si_reachable (s : state) : reachable sstep sinit s -> SI s.
Proof. apply reachable_inv2; [apply si_init|]. intros t l t' R I Hs. eapply si_step; eauto. Qed.
End Proofs.
