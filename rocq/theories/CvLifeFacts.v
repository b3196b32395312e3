(** Invariants for the lifetime of a condition variable. *)
From Coq Require Import List Arith Bool Lia.
From Verif Require Import Base CvLife CvLifeSpec.
Import ListNotations.

Lemma proper_tail : forall es l, proper (es ++ l) -> proper l.
Proof. intros es l H a b g ->. destruct (H (es ++ a) b g (app_assoc _ _ _)) as (A & B). split; auto. intros e X. apply B. apply in_or_app. auto. Qed.
Lemma no_timed_tail : forall es l, no_timed (es ++ l) -> no_timed l.
Proof. intros es l H a b g ->. exact (H (es ++ a) b g (app_assoc _ _ _)). Qed.

(** The notified fibers. *)
Lemma wake_all_spec : forall q m m' es, wake_all m q = (m', es) ->
  (forall f, m' f = if existsb (Nat.eqb f) q && waits m f then Back true else m f) /\
  (forall e, In e es -> exists f, e = EWoken f /\ In f q /\ waits m f = true) /\
  (forall f, In f q -> waits m f = true -> In (EWoken f) es).
Proof.
  induction q as [|g q IH]; simpl; intros m m' es E.
  - inversion E; subst. splits; auto; simpl; tauto.
  - destruct (waits m g) eqn:W.
    + destruct (wake_all (upd m g (Back true)) q) as (m1, es1) eqn:E1. inversion E; subst; clear E. destruct (IH _ _ _ E1) as (A & B & C).
      assert (WW : forall f, waits (upd m g (Back true)) f = if Nat.eqb f g then false else waits m f).
      { intros f. unfold waits. destruct (Nat.eqb_spec f g) as [->|N]; [now rewrite upd_same|now rewrite upd_other by auto]. }
      splits.
      * intros f. rewrite A, WW. destruct (Nat.eqb_spec f g) as [->|N]; simpl.
        -- rewrite andb_false_r, upd_same, W. reflexivity.
        -- rewrite upd_other by auto. reflexivity.
      * intros e X. apply in_app_or in X. destruct X as [X|[<-|[]]].
        -- destruct (B _ X) as (f & -> & Y & Z). exists f. splits; auto. rewrite WW in Z. destruct (Nat.eqb f g); congruence.
        -- exists g. auto.
      * intros f Q Wf. apply in_or_app. destruct (Nat.eq_dec f g) as [->|N]; [right; simpl; auto|]. left. apply C; [destruct Q; congruence|]. rewrite WW. now destruct (Nat.eqb_spec f g).
    + destruct (IH _ _ _ E) as (A & B & C). splits.
      * intros f. rewrite A. destruct (Nat.eqb_spec f g) as [->|N]; simpl; auto. rewrite W, andb_false_r. reflexivity.
      * intros e X. destruct (B _ X) as (f & ? & ? & ?). eauto.
      * intros f [->|Q] Wf; [congruence|auto].
Qed.
Lemma wake_one_spec : forall q m m' q' es, wake_one m q = (m', q', es) ->
  (es = [] /\ q' = [] /\ (forall f, m' f = m f) /\ (forall f, In f q -> waits m f = false)) \/
  (exists p f, q = p ++ f :: q' /\ es = [EWoken f] /\ m' = upd m f (Back true) /\ waits m f = true /\ (forall d, In d p -> waits m d = false)).
Proof.
  induction q as [|g q IH]; simpl; intros m m' q' es E.
  - inversion E; subst. left. splits; auto; simpl; tauto.
  - destruct (waits m g) eqn:W.
    + inversion E; subst. right. exists [], g. splits; auto. simpl; tauto.
    + destruct (IH _ _ _ _ E) as [(-> & -> & A & B)|(p & f & -> & -> & -> & A & B)].
      * left. splits; auto. intros f [<-|X]; auto.
      * right. exists (g :: p), f. splits; auto. intros d [<-|X]; auto.
Qed.

Lemma unnotified_app : forall es l f, (forall e, In e es -> exists d, e = EWoken d) -> 
  unnotified (es ++ l) f = if existsb (fun e => match e with EWoken d => Nat.eqb d f | _ => false end) es then false else unnotified l f.
Proof.
  induction es as [|e es IH]; simpl; intros l f H; auto. destruct (H e (or_introl eq_refl)) as (d & ->). destruct (Nat.eqb d f); simpl; auto.
Qed.
Lemma in_timed_app : forall es l f, (forall e, In e es -> exists d, e = EWoken d) -> in_timed (es ++ l) f = in_timed l f.
Proof. induction es as [|e es IH]; simpl; intros l f H; auto. destruct (H e (or_introl eq_refl)) as (d & ->). auto. Qed.
Lemma unnotified_touch : forall s g l f, unnotified (touch s g ++ l) f = unnotified l f.
Proof. intros. unfold touch. destruct (alive s); reflexivity. Qed.
Lemma in_timed_touch : forall s g l f, in_timed (touch s g ++ l) f = in_timed l f.
Proof. intros. unfold touch. destruct (alive s); reflexivity. Qed.

(** The state and the log agree. *)
Record inv (s : st) : Prop := {
  i_wait : forall f t, fib s f = InWait t -> In f (queue s) /\ unnotified (log s) f = true /\ in_timed (log s) f = t;
  i_expired : forall f, fib s f = Expired -> in_timed (log s) f = true /\ In (ETimeout f) (log s) /\ (In f (queue s) -> unnotified (log s) f = true);
  i_queue : forall f, In f (queue s) -> waits (fib s) f = true \/ fib s f = Expired;
  i_nodup : NoDup (queue s);
  i_dead : alive s = false -> exists g, In (EDestroy g) (log s)
}.
Lemma inv_init : inv init_state.
Proof. split; simpl; try discriminate; try tauto; constructor. Qed.

Lemma remove_in : forall f g q, In g (remove Nat.eq_dec f q) <-> In g q /\ g <> f.
Proof.
  induction q as [|x q IH]; simpl; [tauto|]. destruct (Nat.eq_dec f x) as [->|N].
  - rewrite IH. split; [tauto|]. intros ([->|X] & Y); [congruence|auto].
  - simpl. rewrite IH. split; [intros [->|(A & B)]; auto|tauto].
Qed.
Lemma remove_nodup : forall f q, NoDup q -> NoDup (remove Nat.eq_dec f q).
Proof. induction 1 as [|x q N D IH]; simpl; [constructor|]. destruct (Nat.eq_dec f x); auto. constructor; auto. rewrite remove_in. tauto. Qed.

Lemma NoDup_app_snoc : forall (x : nat) q, NoDup q -> ~ In x q -> NoDup (q ++ [x]).
Proof. induction 1 as [|y q N D IH]; simpl; intros X; constructor; simpl; auto; [constructor|]. rewrite in_app_iff. simpl. intuition congruence. Qed.
Lemma NoDup_app_r : forall (p q : list nat), NoDup (p ++ q) -> NoDup q.
Proof. induction p as [|x p IH]; simpl; auto. inversion 1; auto. Qed.

Ltac atf f g := destruct (Nat.eq_dec g f) as [->|?]; [rewrite ?upd_same, ?Nat.eqb_refl in *|rewrite ?upd_other in * by auto].

Lemma inv_step : forall s l s', inv s -> step s l = Some s' -> inv s'.
Proof.
  intros s l s' I E. destruct I as [Iw Ie Iq In_ Id]. destruct l as [f t|f|g|g|f|f|g]; simpl in E.
  - destruct (fib s f) eqn:F; try discriminate. inversion E; subst; clear E.
    assert (NQ : ~ In f (queue s)) by (intros X; destruct (Iq f X) as [W|W]; unfold waits in *; rewrite F in W; discriminate).
    split; cbn [alive queue fib log].
    + intros g u X. rewrite unnotified_touch, in_timed_touch, in_app_iff. simpl. destruct (Nat.eq_dec g f) as [->|N].
      * rewrite upd_same in X. inversion X; subst. rewrite Nat.eqb_refl. auto.
      * rewrite upd_other in X by auto. destruct (Nat.eqb_spec f g); [congruence|]. destruct (Iw g u X) as (A & B & C). auto.
    + intros g X. rewrite unnotified_touch, in_timed_touch, !in_app_iff. simpl. destruct (Nat.eq_dec g f) as [->|N]; [rewrite upd_same in X; discriminate|].
      rewrite upd_other in X by auto. destruct (Nat.eqb_spec f g); [congruence|]. destruct (Ie g X) as (A & B & C). splits; auto. intros [Y|[Y|[]]]; [auto|congruence].
    + intros g X. apply in_app_or in X. unfold waits. destruct (Nat.eq_dec g f) as [->|N]; [rewrite upd_same; auto|rewrite upd_other by auto]. destruct X as [X|[X|[]]]; [exact (Iq g X)|congruence].
    + apply NoDup_app_snoc; auto.
    + intros A. destruct (Id A) as (g & X). exists g. apply in_or_app. right. right. auto.
  - destruct (fib s f) as [|[]| |] eqn:F; try discriminate. inversion E; subst; clear E. destruct (Iw f true F) as (Q & U & T).
    split; cbn [alive queue fib log unnotified in_timed]; auto.
    + intros g u. atf f g; [discriminate|]. auto.
    + intros g. atf f g.
      * intros _. splits; simpl; auto.
      * intros X. destruct (Ie g X) as (A & B & C). splits; simpl; auto.
    + intros g X. unfold waits. atf f g; auto. exact (Iq g X).
    + intros A. destruct (Id A) as (g & X). exists g. right. auto.
  - destruct (wake_all (fib s) (queue s)) as (m, es) eqn:W. inversion E; subst; clear E. destruct (wake_all_spec _ _ _ _ W) as (A & B & C).
    assert (EW : forall e, In e es -> exists d, e = EWoken d) by (intros e X; destruct (B e X) as (d & -> & _); eauto).
    split; cbn [alive queue fib log].
    + intros f t X. exfalso. rewrite A in X. destruct (existsb (Nat.eqb f) (queue s) && waits (fib s) f) eqn:Y; [discriminate|].
      destruct (Iw f t X) as (Q & _). unfold waits in Y. rewrite X, andb_true_r in Y. rewrite <- not_true_iff_false in Y. apply Y. apply existsb_exists. exists f. split; auto. apply Nat.eqb_refl.
    + intros f X. rewrite A in X. destruct (existsb (Nat.eqb f) (queue s) && waits (fib s) f); [discriminate|]. destruct (Ie f X) as (P & Q & R).
      splits; simpl; try tauto.
      * rewrite in_timed_app by auto. rewrite in_timed_touch. simpl. auto.
      * apply in_or_app. right. apply in_or_app. right. right. auto.
    + simpl. tauto.
    + constructor.
    + intros D. destruct (Id D) as (d & X). exists d. apply in_or_app. right. apply in_or_app. right. right. auto.
  - destruct (wake_one (fib s) (queue s)) as ((m, q), es) eqn:W. inversion E; subst; clear E.
    destruct (wake_one_spec _ _ _ _ _ W) as [(-> & -> & A & B)|(p & f & Q & -> & -> & Wf & B)].
    + split; cbn [alive queue fib log app].
      * intros f t X. rewrite A in X. destruct (Iw f t X) as (Q & _). specialize (B f Q). unfold waits in B. rewrite X in B. discriminate.
      * intros f X. rewrite A in X. destruct (Ie f X) as (P & R & S). rewrite unnotified_touch, in_timed_touch, in_app_iff. simpl. splits; auto; tauto.
      * simpl. tauto.
      * constructor.
      * intros D. destruct (Id D) as (d & X). exists d. apply in_or_app. right. right. auto.
    + assert (ND := In_). rewrite Q in ND. assert (Sub : forall d, In d q -> In d (queue s) /\ d <> f).
      { intros d X. rewrite Q, in_app_iff. simpl. split; auto. intros ->. apply NoDup_remove_2 in ND. apply ND. apply in_or_app. auto. }
      split; cbn [alive queue fib log app unnotified in_timed].
      * intros d t X. destruct (Nat.eq_dec d f) as [->|N]; [rewrite upd_same in X; discriminate|]. rewrite upd_other in X by auto. rewrite unnotified_touch, in_timed_touch. simpl.
        destruct (Nat.eqb_spec f d); [congruence|]. destruct (Iw d t X) as (Qd & U & T). splits; auto.
        rewrite Q in Qd. apply in_app_or in Qd. destruct Qd as [Y|[Y|Y]]; auto; [|congruence]. specialize (B d Y). unfold waits in B. rewrite X in B. discriminate.
      * intros d X. destruct (Nat.eq_dec d f) as [->|N]; [rewrite upd_same in X; discriminate|]. rewrite upd_other in X by auto. rewrite unnotified_touch, in_timed_touch. simpl. rewrite in_app_iff. simpl.
        destruct (Nat.eqb_spec f d); [congruence|]. destruct (Ie d X) as (P & R & S). splits; auto. intros Y. apply S. apply Sub. auto.
      * intros d X. destruct (Sub d X) as (Y & N). unfold waits. rewrite upd_other by auto. exact (Iq d Y).
      * apply NoDup_remove_1 in ND. eapply NoDup_app_r; eauto.
      * intros D. destruct (Id D) as (d & X). exists d. right. apply in_or_app. right. right. auto.
  - destruct (fib s f) eqn:F; try discriminate. inversion E; subst; clear E.
    split; cbn [alive queue fib log].
    + intros g t. atf f g; [discriminate|]. intros X. destruct (Iw g t X) as (A & B & C). rewrite unnotified_touch, in_timed_touch, remove_in. auto.
    + intros g. atf f g; [discriminate|]. intros X. destruct (Ie g X) as (A & B & C). rewrite unnotified_touch, in_timed_touch, remove_in, in_app_iff. splits; auto; tauto.
    + intros g X. apply remove_in in X. destruct X as (X & N). unfold waits. rewrite upd_other by auto. exact (Iq g X).
    + now apply remove_nodup.
    + intros D. destruct (Id D) as (d & X). exists d. apply in_or_app. auto.
  - destruct (fib s f) eqn:F; try discriminate. inversion E; subst; clear E.
    assert (NQ : ~ In f (queue s)) by (intros X; destruct (Iq f X) as [W|W]; unfold waits in *; rewrite F in W; discriminate).
    split; cbn [alive queue fib log unnotified in_timed]; auto.
    + intros g t X. destruct (Nat.eq_dec g f) as [->|N]; [rewrite upd_same in X; discriminate|]. rewrite upd_other in X by auto. destruct (Nat.eqb_spec f g); [congruence|]. eauto.
    + intros g X. destruct (Nat.eq_dec g f) as [->|N]; [rewrite upd_same in X; discriminate|]. rewrite upd_other in X by auto. destruct (Nat.eqb_spec f g); [congruence|]. destruct (Ie g X) as (A & B & C). splits; simpl; auto.
    + intros g X. unfold waits. assert (g <> f) by congruence. rewrite upd_other by auto. exact (Iq g X).
    + intros A. destruct (Id A) as (g & X). exists g. right. auto.
  - destruct (alive s) eqn:A; [|discriminate]. inversion E; subst; clear E.
    assert (X : forall f, unnotified ((if match queue s with [] => true | _ => false end then [] else [EAssert]) ++ EDestroy g :: log s) f = unnotified (log s) f) by (intros f; destruct (queue s); reflexivity).
    assert (Y : forall f, in_timed ((if match queue s with [] => true | _ => false end then [] else [EAssert]) ++ EDestroy g :: log s) f = in_timed (log s) f) by (intros f; destruct (queue s); reflexivity).
    split; cbn [alive queue fib log]; auto.
    + intros f t. rewrite X, Y. auto.
    + intros f F. rewrite X, Y. destruct (Ie f F) as (P & Q & R). splits; auto. apply in_or_app. right. right. auto.
    + intros _. exists g. apply in_or_app. right. left. auto.
Qed.
Lemma inv_reach : forall s, reachable step init_state s -> inv s.
Proof. apply (reachable_inv step inv init_state inv_init). intros; eapply inv_step; eauto. Qed.

(** After the destruction. *)
Record late (s : st) : Prop := {
  d_calm : alive s = false -> proper (log s) -> forall f, waits (fib s) f = false;
  d_none : alive s = false -> proper (log s) -> no_timed (log s) -> forall f, fib s f <> Expired;
  d_alive : alive s = true -> (forall f, ~ In (EBad f) (log s)) /\ ~ In EAssert (log s);
  d_assert : proper (log s) -> ~ In EAssert (log s);
  d_bad : proper (log s) -> forall f, In (EBad f) (log s) -> In (ETimeout f) (log s);
  d_safe : proper (log s) -> no_timed (log s) -> forall f, ~ In (EBad f) (log s)
}.
Lemma late_step : forall s l s', inv s -> late s -> step s l = Some s' -> late s'.
Proof.
  intros s l s' I D E. pose proof (inv_step _ _ _ I E) as I'.
  destruct (alive s) eqn:A.
  - (* alive before *)
    destruct D as [_ _ Dl _ _ _]. specialize (Dl A). destruct Dl as (NB & NA).
    assert (K : alive s' = true -> (forall f, ~ In (EBad f) (log s')) /\ ~ In EAssert (log s') -> late s').
    { intros A' (B1 & B2). split; auto; try congruence. intros _ f X. destruct (B1 f X). }
    assert (T : forall g, touch s g = []) by (intros g; unfold touch; now rewrite A).
    destruct l as [f t|f|g|g|f|f|g]; simpl in E; rewrite ?T in E.
    + destruct (fib s f); inversion E; subst; apply K; auto; simpl; splits; intros; intuition (try discriminate); eauto; eapply NB; eauto.
    + destruct (fib s f) as [|[]| |]; inversion E; subst; apply K; auto; simpl; splits; intros; intuition (try discriminate); eauto; eapply NB; eauto.
    + destruct (wake_all (fib s) (queue s)) as (m, es) eqn:W. destruct (wake_all_spec _ _ _ _ W) as (_ & B & _). inversion E; subst. apply K; auto. cbn [log]. split.
      * intros f X. apply in_app_or in X. destruct X as [X|X]; [destruct (B _ X) as (d & Y & _); discriminate|]. simpl in X. destruct X as [X|X]; [discriminate|]. eapply NB; eauto.
      * intros X. apply in_app_or in X. destruct X as [X|X]; [destruct (B _ X) as (d & Y & _); discriminate|]. simpl in X. destruct X as [X|X]; [discriminate|]. auto.
    + destruct (wake_one (fib s) (queue s)) as ((m, q), es) eqn:W. inversion E; subst. apply K; auto. cbn [log].
      destruct (wake_one_spec _ _ _ _ _ W) as [(-> & _)|(p & f & _ & -> & _)]; simpl; split; intros; intuition (try discriminate); eauto; eapply NB; eauto.
    + destruct (fib s f); inversion E; subst; apply K; auto.
    + destruct (fib s f); inversion E; subst; apply K; auto; simpl; splits; intros; intuition (try discriminate); eauto; eapply NB; eauto.
    + rewrite A in E. inversion E; subst; clear E. cbn [alive queue fib log] in *. set (es := if match queue s with [] => true | _ => false end then [] else [EAssert]) in *.
      assert (PW : proper (es ++ EDestroy g :: log s) -> (forall f, unnotified (log s) f = false)) by (intros P; exact (proj1 (P es (log s) g eq_refl))).
      assert (NBx : forall f, ~ In (EBad f) (es ++ EDestroy g :: log s)).
      { intros f X. apply in_app_or in X. destruct X as [X|[X|X]]; [|discriminate|eapply NB; eauto]. unfold es in X. destruct (queue s); simpl in X; intuition discriminate. }
      assert (PQ : proper (es ++ EDestroy g :: log s) -> queue s = []).
      { intros P. specialize (PW P). destruct (queue s) as [|x q] eqn:Q; auto. exfalso. destruct (i_queue s I x) as [W|W]; [rewrite Q; simpl; auto| |].
        - unfold waits in W. destruct (fib s x) eqn:F; try discriminate. destruct (i_wait s I x _ F) as (_ & U & _). rewrite PW in U. discriminate.
        - destruct (i_expired s I x W) as (_ & _ & U). rewrite Q in U. rewrite PW in U. specialize (U (or_introl eq_refl)). discriminate. }
      split; cbn [alive queue fib log].
      * intros _ P f. destruct (waits (fib s) f) eqn:W; auto. unfold waits in W. destruct (fib s f) eqn:F; try discriminate. destruct (i_wait s I f _ F) as (_ & U & _). rewrite (PW P) in U. discriminate.
      * intros _ P N f F. destruct (i_expired s I f F) as (T1 & _). rewrite (N es (log s) g eq_refl f) in T1. discriminate.
      * discriminate.
      * intros P X. specialize (PQ P). apply in_app_or in X. destruct X as [X|[X|X]]; [|discriminate|auto]. unfold es in X. rewrite PQ in X. simpl in X. auto.
      * intros _ f X. destruct (NBx f X).
      * intros _ _. exact NBx.
  - (* destroyed before *)
    destruct (i_dead s I A) as (g0 & G). apply in_split in G. destruct G as (a0 & b0 & G).
    assert (NoCall : forall es, proper (es ++ log s) -> forall e, In e es -> ~ call e).
    { intros es P e X. rewrite G, app_assoc in P. apply (proj2 (P _ _ _ eq_refl)). apply in_or_app. auto. }
    destruct D as [Dc Dn _ Da Db Ds].
    assert (K : alive s' = false -> (exists es, log s' = es ++ log s /\
         (proper (log s') -> (forall f, fib s' f = fib s f \/ exists r, fib s' f = Back r \/ fib s' f = Out) /\ ~ In EAssert es /\ forall f, In (EBad f) es -> fib s f = Expired)) -> late s').
    { intros A' (es & L & X). split.
      - intros _ P f. destruct (X P) as (Y & _). rewrite L in P. apply proper_tail in P. specialize (Dc A P f). unfold waits in *. destruct (Y f) as [->|(r & [-> | ->])]; auto.
      - intros _ P N f F. destruct (X P) as (Y & _). rewrite L in P, N. apply proper_tail in P. apply no_timed_tail in N. destruct (Y f) as [Z|(r & [Z|Z])]; try congruence. rewrite Z in F. exact (Dn A P N f F).
      - congruence.
      - intros P Z. destruct (X P) as (_ & Y & _). rewrite L in P, Z. apply in_app_or in Z. destruct Z as [Z|Z]; auto. apply proper_tail in P. exact (Da P Z).
      - intros P f Z. destruct (X P) as (_ & _ & Y). rewrite L in *. apply in_or_app. right. apply in_app_or in Z. apply proper_tail in P. destruct Z as [Z|Z]; auto. apply (i_expired s I f). auto.
      - intros P N f Z. destruct (X P) as (_ & _ & Y). rewrite L in *. apply proper_tail in P. apply no_timed_tail in N. apply in_app_or in Z. destruct Z as [Z|Z]; [|exact (Ds P N f Z)]. exact (Dn A P N f (Y f Z)). }
    assert (T : forall g, touch s g = [EBad g]) by (intros g; unfold touch; now rewrite A).
    destruct l as [f t|f|g|g|f|f|g]; simpl in E; rewrite ?T in E.
    + destruct (fib s f); inversion E; subst; clear E. apply K; auto. exists ([EBad f; EWait f t]). split; auto. intros P. destruct (NoCall [EBad f; EWait f t] P (EWait f t)); simpl; auto.
    + destruct (fib s f) as [|[]| |] eqn:F; inversion E; subst; clear E. apply K; auto. exists [ETimeout f]. split; auto. intros P. exfalso. apply (proper_tail [ETimeout f]) in P. specialize (Dc A P f). unfold waits in Dc. rewrite F in Dc. discriminate.
    + destruct (wake_all (fib s) (queue s)) as (m, es) eqn:W. inversion E; subst; clear E. apply K; auto. exists (es ++ [EBad g; ENotifyAll g]). split; [cbn [log app]; rewrite <- app_assoc; reflexivity|].
      cbn [log]. intros P. change (proper (es ++ [EBad g; ENotifyAll g] ++ log s)) in P. rewrite app_assoc in P. destruct (NoCall _ P (ENotifyAll g)); simpl; auto. apply in_or_app. simpl. auto.
    + destruct (wake_one (fib s) (queue s)) as ((m, q), es) eqn:W. inversion E; subst; clear E. apply K; auto. exists (es ++ [EBad g; ENotifyOne g]). split; [cbn [log app]; rewrite <- app_assoc; reflexivity|].
      cbn [log]. intros P. change (proper (es ++ [EBad g; ENotifyOne g] ++ log s)) in P. rewrite app_assoc in P. destruct (NoCall _ P (ENotifyOne g)); simpl; auto. apply in_or_app. simpl. auto.
    + destruct (fib s f) eqn:F; inversion E; subst; clear E. apply K; auto. exists [EBad f]. split; auto. cbn [fib]. intros _. splits.
      * intros g. atf f g; eauto.
      * simpl. intuition discriminate.
      * intros g [X|[]]. congruence.
    + destruct (fib s f) eqn:F; inversion E; subst; clear E. apply K; auto. exists [EReturn f r]. split; auto. cbn [fib]. intros _. splits.
      * intros g. atf f g; eauto.
      * simpl. intuition discriminate.
      * intros g [X|[]]. congruence.
    + rewrite A in E. discriminate.
Unshelve. all: exact true.
Qed.
Lemma late_reach : forall s, reachable step init_state s -> late s.
Proof.
  apply (reachable_inv2 step late init_state); [|intros s l s' R D E; exact (late_step s l s' (inv_reach s R) D E)].
  split; simpl; try discriminate; try tauto; auto.
Qed.
