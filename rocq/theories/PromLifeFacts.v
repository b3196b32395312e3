(** Invariants for the lifetime of a promise. *)
From Coq Require Import List Arith Bool Lia.
From Verif Require Import Base PromLife PromLifeSpec.
Import ListNotations.

Definition setter (p : pc) : bool := match p with S0 | S1 | S2 | S3 | S4 | S5 => true | _ => false end.
Definition early (p : pc) : bool := match p with S0 | S1 | S2 | S3 => true | _ => false end.
Definition destr (p : pc) : bool := match p with D1 | D2 | D3 => true | _ => false end.
Definition dlock (p : pc) : bool := match p with D1 | D2 => true | _ => false end.
Definition getting (p : pc) : bool := match p with G1 | G2 | G3 => true | _ => false end.
Definition crit (p : pc) : bool := match p with S2 | S3 | G2 | D2 => true | _ => false end.
Definition unstored (p : pc) : bool := match p with S0 | S1 | S2 => true | _ => false end.
Definition busy (p : pc) : bool := match p with S2 | S3 | S4 => true | _ => false end.

Section F.
Context (thr : nat -> nat).
Record inv (s : st) : Prop := {
  i_set : forall f, f <> 0 -> setter (fib s f) = false;
  i_zero : setter (fib s 0) || destr (fib s 0) = true;
  i_prom : gone s = false -> prom s = true;
  i_destr : forall f, destr (fib s f) = true -> gone s = true;
  i_dlock : forall f, dlock (fib s f) = true -> prom s = true;
  i_one : forall f g, destr (fib s f) = true -> destr (fib s g) = true -> f = g;
  i_held : forall f, getting (fib s f) = true -> In f (held s);
  i_mtx : forall f, crit (fib s f) = true -> mtx s = Some f;
  i_ready : ready s = negb (unstored (fib s 0));
  i_got : forall f, fib s f = G4 -> early (fib s 0) = false;
  i_gone : gone s = true -> early (fib s 0) = false /\ exists g, In (EDestroy g) (log s) /\ destr (fib s g) = true;
  i_busy : busy (fib s 0) = true -> run s (thr 0) = Some 0;
  i_bad : forall f, In (EBad f) (log s) -> f = 0 /\ (exists g, g <> 0 /\ In (EDestroy g) (log s)) /\ ~ forall g, thr g = thr 0;
  i_s4 : fib s 0 = S4 -> gone s = true -> ~ forall g, thr g = thr 0;
  i_dest : forall g, In (EDestroy g) (log s) -> destr (fib s g) = true;
  i_when : after_get (log s)
}.

Lemma inv_init : forall fs, inv (init_state fs).
Proof.
  intros fs. split; simpl; auto; try discriminate; try tauto.
  - intros f N. destruct f; [congruence|reflexivity].
  - intros f. destruct f; discriminate.
  - intros f. destruct f; discriminate.
  - intros f g. destruct f; discriminate.
  - intros f. destruct f; discriminate.
  - intros f. destruct f; discriminate.
  - intros [|? ?] ? ? X; discriminate.
Qed.
Lemma runs_at : forall s f, runs thr s f = true -> run s (thr f) = Some f.
Proof. unfold runs. intros s f H. destruct (run s (thr f)); [|discriminate]. apply Nat.eqb_eq in H. congruence. Qed.
Lemma not_freed : forall s f, inv s -> early (fib s f) = true \/ getting (fib s f) = true \/ dlock (fib s f) = true -> touch s f = [].
Proof.
  intros s f I H. unfold touch, freed. destruct H as [H|[H|H]].
  - assert (f = 0) by (destruct (Nat.eq_dec f 0); auto; pose proof (i_set s I f n); destruct (fib s f); discriminate). subst.
    destruct (gone s) eqn:G; [destruct (i_gone s I G); congruence|]. now rewrite (i_prom s I G).
  - pose proof (i_held s I f H). destruct (held s); [contradiction|]. now rewrite andb_false_r.
  - now rewrite (i_dlock s I f H).
Qed.
Lemma when_cons : forall e l, after_get l -> (forall g, e = EDestroy g -> In (EGot g) l \/ In ESetDone l) -> after_get (e :: l).
Proof.
  intros e l H E a b g X. destruct a as [|x a]; simpl in X; inversion X; subst; auto. eapply H; eauto.
Qed.

(** The log tells who may destroy the promise. *)
Record linv (s : st) : Prop := {
  l_got : forall f, fib s f = G4 -> In (EGot f) (log s);
  l_done : fib s 0 = S5 -> In ESetDone (log s)
}.

Ltac at0 f := destruct (Nat.eq_dec f 0) as [->|?]; [rewrite ?upd_same in *|rewrite ?upd_other in * by auto].

(** A step of [go] that changes only what f does, mtx_ and ready_. *)
Lemma inv_put : forall s f p m r es, inv s -> run s (thr f) = Some f ->
  (f <> 0 -> setter p = false) -> (f = 0 -> setter p = true) -> destr (fib s f) = false -> destr p = false ->
  (getting p = true -> In f (held s)) ->
  (crit p = true -> m = Some f) -> (forall g, g <> f -> mtx s = Some g -> crit (fib s g) = true -> m = Some g) ->
  (f = 0 -> r = negb (unstored p)) -> (f <> 0 -> r = ready s) ->
  (p = G4 -> early (fib s 0) = false) -> (early p = true -> early (fib s f) = true) -> (p = S4 -> early (fib s 0) = true) ->
  (forall e, In e es -> match e with EBad _ | EDestroy _ => False | _ => True end) ->
  inv (put s f p m r es).
Proof.
  intros s f p m r es I Rf Hs H0 Df Dp Hg Hc Hm Hr Hr' H4 He H5 Hes. destruct I. split; unfold put; cbn [fib run mtx ready prom gone held log]; auto.
  - intros g N. destruct (Nat.eq_dec g f) as [->|N']; [rewrite upd_same; auto|rewrite upd_other; auto].
  - destruct (Nat.eq_dec 0 f) as [<-|N]; [rewrite upd_same, (H0 eq_refl); auto|rewrite upd_other; auto].
  - intros g. destruct (Nat.eq_dec g f) as [->|N']; [rewrite upd_same; congruence|rewrite upd_other; eauto].
  - intros g. destruct (Nat.eq_dec g f) as [->|N']; [rewrite upd_same; destruct p; discriminate|rewrite upd_other; eauto].
  - intros g h. destruct (Nat.eq_dec g f) as [->|N']; [rewrite upd_same; congruence|rewrite upd_other by auto]. destruct (Nat.eq_dec h f) as [->|N'']; [rewrite upd_same; congruence|rewrite upd_other by auto; auto].
  - intros g. destruct (Nat.eq_dec g f) as [->|N']; [rewrite upd_same; auto|rewrite upd_other; auto].
  - intros g. destruct (Nat.eq_dec g f) as [->|N']; [rewrite upd_same; auto|rewrite upd_other; auto].
  - destruct (Nat.eq_dec 0 f) as [<-|N]; [rewrite upd_same; auto|rewrite upd_other by auto; rewrite Hr'; auto].
  - intros g X. assert (E0 : early (fib s 0) = false) by (destruct (Nat.eq_dec g f) as [->|N']; [rewrite upd_same in X; auto|rewrite upd_other in X by auto; eauto]).
    destruct (Nat.eq_dec 0 f) as [<-|N]; [rewrite upd_same|rewrite upd_other; auto]. destruct (early p); auto. rewrite He in E0; auto.
  - intros G. destruct (i_gone0 G) as (E0 & g & X & Y). split.
    + destruct (Nat.eq_dec 0 f) as [<-|N]; [rewrite upd_same|rewrite upd_other; auto]. destruct (early p); auto. rewrite He in E0; auto.
    + exists g. split; [apply in_or_app; auto|]. rewrite upd_other; auto. intros ->. congruence.
  - destruct (Nat.eq_dec 0 f) as [<-|N]; [intros _; auto|rewrite upd_other; auto].
  - intros g X. apply in_app_or in X. destruct X as [X|X]; [destruct (Hes _ X)|]. destruct (i_bad0 g X) as (A & (h & N & B) & C). splits; auto. exists h. split; auto. apply in_or_app; auto.
  - destruct (Nat.eq_dec 0 f) as [<-|N]; [rewrite upd_same|rewrite upd_other; auto]. intros P G. destruct (i_gone0 G) as (E0 & _). rewrite (H5 P) in E0. discriminate.
  - intros g X. apply in_app_or in X. destruct X as [X|X]; [destruct (Hes _ X)|]. rewrite upd_other; auto. intros ->. rewrite i_dest0 in Df; auto. discriminate.
  - clear - Hes i_when0. induction es as [|e es IH]; simpl; auto. apply when_cons; [apply IH; intros; apply Hes; simpl; auto|]. intros g ->. destruct (Hes (EDestroy g)). simpl; auto.
Qed.
Lemma inv_off : forall s f, inv s -> run s (thr f) = Some f -> (f = 0 -> busy (fib s 0) = false) -> inv (off thr s f).
Proof.
  intros s f I Rf B. destruct I. split; auto. unfold off; cbn [fib run]. intros X. destruct (Nat.eq_dec (thr 0) (thr f)) as [E|N]; [|rewrite upd_other; auto].
  specialize (i_busy0 X). rewrite E in i_busy0. assert (f = 0) by congruence. rewrite B in X; auto. discriminate.
Qed.

Ltac solve_put I F := apply inv_put; auto; rewrite ?F; simpl; auto; try discriminate; try congruence.

Lemma inv_step : forall s l s', inv s -> linv s -> step thr s l = Some s' -> inv s'.
Proof.
  intros s l s' I L E. destruct l as [f|f|f|f|f]; simpl in E.
  - destruct (run s (thr f)) eqn:Rf; [discriminate|]. 
    assert (X : s' = mkSt (fib s) (upd (run s) (thr f) (Some f)) (mtx s) (ready s) (prom s) (gone s) (held s) (log s)) by (destruct (fib s f); congruence).
    subst s'. clear E. destruct I. split; auto; cbn [fib run]. intros B. specialize (i_busy0 B). rewrite upd_other; auto. congruence.
  - destruct (runs thr s f) eqn:Rf; [|discriminate]. apply runs_at in Rf.
    destruct (fib s f) eqn:F; try discriminate; try (destruct (mtx s) eqn:M; try discriminate); inversion E; subst; clear E; apply inv_off; auto; intros ->; rewrite F; reflexivity.
  - destruct (runs thr s f) eqn:Rf; [|discriminate]. apply runs_at in Rf. unfold go in E.
    assert (Z : setter (fib s f) = true -> f = 0) by (intros X; destruct (Nat.eq_dec f 0); auto; rewrite (i_set s I f n) in X; discriminate).
    assert (Z' : setter (fib s f) || destr (fib s f) = false -> f <> 0) by (intros X ->; rewrite (i_zero s I) in X; discriminate).
    assert (T : early (fib s f) = true \/ getting (fib s f) = true \/ dlock (fib s f) = true -> touch s f = []) by (apply not_freed; auto).
    assert (MX : crit (fib s f) = true -> forall g, g <> f -> mtx s = Some g -> crit (fib s g) = true -> None = Some g) by (intros X g N M _; rewrite (i_mtx s I f X) in M; congruence).
    assert (MN : mtx s = None -> forall g, g <> f -> None = Some g -> crit (fib s g) = true -> Some f = Some g) by (intros; congruence).
    destruct (fib s f) eqn:F; try discriminate.
    + assert (f = 0) by auto. subst f. destruct (gone s) eqn:G; [destruct (i_gone s I G) as (X & _); rewrite F in X; discriminate|].
      inversion E; subst; clear E. apply inv_put; auto; rewrite ?F; simpl; auto; try discriminate; try congruence.
      * rewrite (i_ready s I), F. reflexivity.
      * intros e [<-|[]]; auto.
    + destruct (mtx s) eqn:M; [discriminate|]. inversion E; subst; clear E. assert (f = 0) by auto. subst f. rewrite T by auto.
      apply inv_put; auto; rewrite ?F; simpl; auto; try discriminate; try congruence.
      * rewrite (i_ready s I), F. reflexivity.
      * tauto.
    + inversion E; subst; clear E. assert (f = 0) by auto. subst f. rewrite T by auto.
      apply inv_put; auto; rewrite ?F; simpl; auto; try discriminate; try congruence.
      * intros _. apply (i_mtx s I). now rewrite F.
      * intros e [<-|[]]; auto.
    + inversion E; subst; clear E. assert (f = 0) by auto. subst f. rewrite T by auto.
      apply inv_put; auto; rewrite ?F; simpl; auto; try discriminate; try congruence.
      * rewrite (i_ready s I), F. reflexivity.
      * tauto.
    + (* the notification *)
      inversion E; subst; clear E. assert (f = 0) by auto. subst f.
      assert (W : forall g, g <> 0 -> upd (wake (fib s)) 0 S5 g = match fib s g with G3 => G1 | p => p end) by (intros g N; rewrite upd_other; auto).
      assert (BB : forall g, In (EBad g) (touch s 0) -> g = 0 /\ (exists h, h <> 0 /\ In (EDestroy h) (log s)) /\ ~ forall h, thr h = thr 0).
      { intros g X. unfold touch, freed in X. destruct (prom s) eqn:P; [destruct X|]. destruct (held s); [|destruct X]. destruct X as [X|[]]. inversion X; subst. split; auto.
        destruct (gone s) eqn:G; [|rewrite (i_prom s I G) in P; discriminate]. destruct (i_gone s I G) as (_ & h & Y & D). split.
        - exists h. split; auto. intros ->. rewrite F in D. discriminate.
        - exact (i_s4 s I F G). }
      assert (TN : forall e, In e (touch s 0) -> e = EBad 0) by (unfold touch; destruct (freed s); simpl; intuition).
      destruct I. split; cbn [fib run mtx ready prom gone held log]; auto.
      * intros g N. rewrite W by auto. specialize (i_set0 g N). destruct (fib s g); auto.
      * intros g. destruct (Nat.eq_dec g 0) as [->|N]; [rewrite upd_same; discriminate|rewrite W by auto]. intros X. apply (i_destr0 g). destruct (fib s g); auto.
      * intros g. destruct (Nat.eq_dec g 0) as [->|N]; [rewrite upd_same; discriminate|rewrite W by auto]. intros X. apply (i_dlock0 g). destruct (fib s g); auto.
      * intros g h. destruct (Nat.eq_dec g 0) as [->|N]; [rewrite upd_same; discriminate|rewrite W by auto]. destruct (Nat.eq_dec h 0) as [->|N']; [rewrite upd_same; discriminate|rewrite W by auto]. intros X Y. apply (i_one0 g h); destruct (fib s g), (fib s h); auto.
      * intros g. destruct (Nat.eq_dec g 0) as [->|N]; [rewrite upd_same; discriminate|rewrite W by auto]. intros X. apply (i_held0 g). destruct (fib s g); auto.
      * intros g. destruct (Nat.eq_dec g 0) as [->|N]; [rewrite upd_same; discriminate|rewrite W by auto]. intros X. apply (i_mtx0 g). destruct (fib s g); auto; discriminate.
      * rewrite i_ready0, F. reflexivity.
      * intros G. split; auto. destruct (i_gone0 G) as (_ & g & X & Y). exists g. split; [right; apply in_or_app; auto|]. assert (g <> 0) by (intros ->; rewrite F in Y; discriminate). rewrite W by auto. destruct (fib s g); auto.
      * intros g [X|X]; [discriminate|]. apply in_app_or in X.
        assert (Y : g = 0 /\ (exists h, h <> 0 /\ In (EDestroy h) (log s)) /\ ~ forall h, thr h = thr 0) by (destruct X; auto).
        destruct Y as (A & (h & N & B) & C). splits; auto. exists h. split; auto. right. apply in_or_app; auto.
      * intros g [X|X]; [discriminate|]. apply in_app_or in X. destruct X as [X|X]; [apply TN in X; discriminate|]. specialize (i_dest0 g X). assert (g <> 0) by (intros ->; rewrite F in i_dest0; discriminate). rewrite W by auto. destruct (fib s g); auto.
      * apply when_cons; [|discriminate]. unfold touch. destruct (freed s); simpl; auto. apply when_cons; auto. discriminate.
    + destruct (existsb (Nat.eqb f) (held s)) eqn:H; [|discriminate]. inversion E; subst; clear E. assert (f <> 0) by auto.
      apply existsb_exists in H. destruct H as (x & X & Y). apply Nat.eqb_eq in Y. subst x.
      apply inv_put; auto; rewrite ?F; simpl; auto; try discriminate; try congruence. tauto.
    + destruct (mtx s) eqn:M; [discriminate|]. inversion E; subst; clear E. assert (f <> 0) by auto. rewrite T by auto.
      assert (H1 : In f (held s)) by (apply (i_held s I); now rewrite F).
      apply inv_put; auto; rewrite ?F; simpl; auto; try discriminate; try congruence. tauto.
    + assert (f <> 0) by auto. rewrite T in E by auto.
      assert (H1 : In f (held s)) by (apply (i_held s I); now rewrite F). pose proof (i_ready s I) as Rd.
      destruct (ready s) eqn:R; inversion E; subst; clear E.
      * apply inv_put; auto; rewrite ?F; simpl; auto; try discriminate; try congruence.
        -- intros _. destruct (fib s 0) eqn:F0; try discriminate; auto. pose proof (i_mtx s I 0) as M0. rewrite F0 in M0. pose proof (i_mtx s I f) as M1. rewrite F in M1. specialize (M0 eq_refl). specialize (M1 eq_refl). congruence.
        -- intros e [<-|[]]; auto.
      * apply inv_off; [|unfold put; auto|intros ->; congruence]. apply inv_put; auto; rewrite ?F; simpl; auto; try discriminate; try congruence. tauto.
    + destruct (mtx s) eqn:M; [discriminate|]. inversion E; subst; clear E. rewrite T by auto.
      assert (DD : forall g, destr (fib s g) = true -> g = f) by (intros g X; apply (i_one s I); auto; now rewrite F).
      destruct I. split; unfold put; cbn [fib run mtx ready prom gone held log app]; auto.
      * intros g N. destruct (Nat.eq_dec g f) as [->|N']; [rewrite upd_same; auto|rewrite upd_other; auto].
      * destruct (Nat.eq_dec 0 f) as [<-|N]; [rewrite upd_same; auto|rewrite upd_other; auto].
      * intros g. destruct (Nat.eq_dec g f) as [->|N']; [intros _; apply (i_destr0 f); now rewrite F|rewrite upd_other; eauto].
      * intros g. destruct (Nat.eq_dec g f) as [->|N']; [intros _; apply (i_dlock0 f); now rewrite F|rewrite upd_other; eauto].
      * intros g h. destruct (Nat.eq_dec g f) as [->|N']; destruct (Nat.eq_dec h f) as [->|N'']; rewrite ?upd_same, ?upd_other by auto; auto; intros _ X; symmetry; auto.
      * intros g. destruct (Nat.eq_dec g f) as [->|N']; [rewrite upd_same; discriminate|rewrite upd_other; auto].
      * intros g. destruct (Nat.eq_dec g f) as [->|N']; [rewrite upd_same; auto|rewrite upd_other by auto]. intros X. specialize (i_mtx0 g X). congruence.
      * destruct (Nat.eq_dec 0 f) as [<-|N]; [rewrite upd_same, i_ready0, F; reflexivity|rewrite upd_other; auto].
      * intros g X. assert (g <> f) by (intros ->; rewrite upd_same in X; discriminate). rewrite upd_other in X by auto. destruct (Nat.eq_dec 0 f) as [<-|N]; [rewrite upd_same; auto|rewrite upd_other; eauto].
      * intros G. destruct (i_gone0 G) as (E0 & g & X & Y). split; [destruct (Nat.eq_dec 0 f) as [<-|N]; [rewrite upd_same; auto|rewrite upd_other; eauto]|]. exists g. split; auto. rewrite (DD g Y), upd_same. reflexivity.
      * destruct (Nat.eq_dec 0 f) as [<-|N]; [rewrite upd_same; discriminate|rewrite upd_other; auto].
      * destruct (Nat.eq_dec 0 f) as [<-|N]; [rewrite upd_same; discriminate|rewrite upd_other; auto].
      * intros g X. specialize (i_dest0 g X). rewrite (DD g i_dest0), upd_same. reflexivity.
    + inversion E; subst; clear E. rewrite T by auto.
      assert (DD : forall g, destr (fib s g) = true -> g = f) by (intros g X; apply (i_one s I); auto; now rewrite F).
      assert (MF : mtx s = Some f) by (apply (i_mtx s I); now rewrite F).
      assert (GG : gone s = true) by (apply (i_destr s I f); now rewrite F).
      destruct I. split; unfold put; cbn [fib run mtx ready prom gone held log app]; auto.
      * intros g N. destruct (Nat.eq_dec g f) as [->|N']; [rewrite upd_same; auto|rewrite upd_other; auto].
      * destruct (Nat.eq_dec 0 f) as [<-|N]; [rewrite upd_same; auto|rewrite upd_other; auto].
      * congruence.
      * intros g. destruct (Nat.eq_dec g f) as [->|N']; [rewrite upd_same; discriminate|rewrite upd_other by auto]. intros X. destruct N'. apply DD. destruct (fib s g); auto.
      * intros g h. destruct (Nat.eq_dec g f) as [->|N']; destruct (Nat.eq_dec h f) as [->|N'']; rewrite ?upd_same, ?upd_other by auto; auto; intros _ X; symmetry; auto.
      * intros g. destruct (Nat.eq_dec g f) as [->|N']; [rewrite upd_same; discriminate|rewrite upd_other; auto].
      * intros g. destruct (Nat.eq_dec g f) as [->|N']; [rewrite upd_same; discriminate|rewrite upd_other by auto]. intros X. specialize (i_mtx0 g X). congruence.
      * destruct (Nat.eq_dec 0 f) as [<-|N]; [rewrite upd_same, i_ready0, F; reflexivity|rewrite upd_other; auto].
      * intros g X. assert (g <> f) by (intros ->; rewrite upd_same in X; discriminate). rewrite upd_other in X by auto. destruct (Nat.eq_dec 0 f) as [<-|N]; [rewrite upd_same; auto|rewrite upd_other; eauto].
      * intros G. destruct (i_gone0 G) as (E0 & g & X & Y). split; [destruct (Nat.eq_dec 0 f) as [<-|N]; [rewrite upd_same; auto|rewrite upd_other; eauto]|]. exists g. split; auto. rewrite (DD g Y), upd_same. reflexivity.
      * destruct (Nat.eq_dec 0 f) as [<-|N]; [rewrite upd_same; discriminate|rewrite upd_other; auto].
      * destruct (Nat.eq_dec 0 f) as [<-|N]; [rewrite upd_same; discriminate|rewrite upd_other; auto].
      * intros g X. specialize (i_dest0 g X). rewrite (DD g i_dest0), upd_same. reflexivity.
  - destruct (runs thr s f) eqn:Rf; [|discriminate]. apply runs_at in Rf. destruct (gone s) eqn:G; [discriminate|]. simpl in E.
    assert (P4 : fib s f = G4 \/ fib s f = S5) by (destruct (fib s f); auto; discriminate).
    assert (X : s' = mkSt (upd (fib s) f D1) (run s) (mtx s) (ready s) (prom s) true (held s) (EDestroy f :: log s)) by (destruct P4 as [X|X]; rewrite X in E; congruence).
    subst s'; clear E.
    assert (DD : forall g, destr (fib s g) = false) by (intros g; destruct (destr (fib s g)) eqn:X; auto; rewrite (i_destr s I g X) in G; discriminate).
    assert (E0 : early (fib s 0) = false) by (destruct P4 as [X|X]; [eapply i_got; eauto|]; destruct (Nat.eq_dec f 0) as [->|N]; [rewrite X; auto|]; pose proof (i_set s I f N) as Y; rewrite X in Y; discriminate).
    destruct I. destruct L as [Lg Ld]. split; cbn [fib run mtx ready prom gone held log app]; auto.
    + intros g N. destruct (Nat.eq_dec g f) as [->|N']; [rewrite upd_same; auto|rewrite upd_other; auto].
    + destruct (Nat.eq_dec 0 f) as [<-|N]; [rewrite upd_same; auto|rewrite upd_other; auto].
    + intros g h. destruct (Nat.eq_dec g f) as [->|N']; destruct (Nat.eq_dec h f) as [->|N'']; rewrite ?upd_same, ?upd_other by auto; rewrite ?DD; auto; discriminate.
    + intros g. destruct (Nat.eq_dec g f) as [->|N']; [rewrite upd_same; discriminate|rewrite upd_other; auto].
    + intros g. destruct (Nat.eq_dec g f) as [->|N']; [rewrite upd_same; discriminate|rewrite upd_other; auto].
    + destruct (Nat.eq_dec 0 f) as [<-|N]; [rewrite upd_same, i_ready0|rewrite upd_other; auto]. destruct (fib s 0); auto; discriminate.
    + intros g X. destruct (Nat.eq_dec 0 f) as [<-|N]; [rewrite upd_same; auto|rewrite upd_other; auto].
    + intros _. split; [destruct (Nat.eq_dec 0 f) as [<-|N]; [rewrite upd_same; auto|rewrite upd_other; auto]|]. exists f. rewrite upd_same. simpl. auto.
    + destruct (Nat.eq_dec 0 f) as [<-|N]; [rewrite upd_same; discriminate|rewrite upd_other; auto].
    + intros g [X|X]; [discriminate|]. destruct (i_bad0 g X) as (A & (h & N & B) & C). splits; auto. exists h. simpl. auto.
    + destruct (Nat.eq_dec 0 f) as [<-|N]; [rewrite upd_same; discriminate|rewrite upd_other by auto]. intros F0 _ T. rewrite T in Rf. rewrite F0 in i_busy0. specialize (i_busy0 eq_refl). congruence.
    + intros g [X|X]; [inversion X; subst; now rewrite upd_same|]. specialize (i_dest0 g X). rewrite DD in i_dest0. discriminate.
    + apply when_cons; auto. intros g X. inversion X; subst. destruct P4 as [Y|Y]; auto. destruct (Nat.eq_dec g 0) as [->|N]; auto. specialize (i_set0 g N). rewrite Y in i_set0. discriminate.
  - destruct (runs thr s f) eqn:Rf; [|discriminate].
    assert (X : s' = mkSt (fib s) (run s) (mtx s) (ready s) (prom s) (gone s) (remove Nat.eq_dec f (held s)) (log s) /\ getting (fib s f) = false) by (destruct (fib s f); inversion E; auto).
    destruct X as (-> & NG). destruct I. split; auto. cbn [fib held]. intros g X. apply in_in_remove; auto. intros ->. congruence.
Qed.

Lemma linv_step : forall s l s', inv s -> linv s -> step thr s l = Some s' -> linv s'.
Proof.
  intros s l s' I (Lg & Ld) E.
  assert (K : forall f p m r es, (p = G4 -> In (EGot f) es) -> (f = 0 -> p <> S5) -> linv (put s f p m r es)).
  { intros f p m r es H4 H5. split; unfold put; cbn [fib log].
    - intros g. destruct (Nat.eq_dec g f) as [->|N]; [rewrite upd_same; intros X; apply in_or_app; auto|rewrite upd_other by auto; intros X; apply in_or_app; auto].
    - destruct (Nat.eq_dec 0 f) as [<-|N]; [rewrite upd_same; intros X; destruct (H5 eq_refl X)|rewrite upd_other by auto; intros X; apply in_or_app; auto]. }
  destruct l as [f|f|f|f|f]; simpl in E.
  - destruct (run s (thr f)); [discriminate|]. assert (X : fib s' = fib s /\ log s' = log s) by (destruct (fib s f); inversion E; auto). destruct X as (X & Y). split; rewrite X, Y; auto.
  - destruct (runs thr s f); [|discriminate]. assert (X : fib s' = fib s /\ log s' = log s) by (destruct (fib s f); try discriminate; try (destruct (mtx s); try discriminate); inversion E; auto). destruct X as (X & Y). split; rewrite X, Y; auto.
  - destruct (runs thr s f); [|discriminate]. unfold go in E.
    assert (Z : setter (fib s f) = true -> f = 0) by (intros X; destruct (Nat.eq_dec f 0); auto; rewrite (i_set s I f n) in X; discriminate).
    destruct (fib s f) eqn:F; try discriminate.
    + inversion E; subst. apply K; discriminate.
    + destruct (mtx s); [discriminate|]. inversion E; subst. apply K; discriminate.
    + inversion E; subst. apply K; discriminate.
    + inversion E; subst. apply K; discriminate.
    + inversion E; subst; clear E. assert (f = 0) by auto. subst f. split; cbn [fib log].
      * intros g. destruct (Nat.eq_dec g 0) as [->|N]; [rewrite upd_same; discriminate|rewrite upd_other by auto]. unfold wake. intros X. right. apply in_or_app. right. apply Lg. destruct (fib s g); auto; discriminate.
      * intros _. left. auto.
    + destruct (existsb (Nat.eqb f) (held s)); [|discriminate]. inversion E; subst. apply K; discriminate.
    + destruct (mtx s); [discriminate|]. inversion E; subst. apply K; discriminate.
    + destruct (ready s); inversion E; subst; clear E.
      * apply K; [|discriminate]. intros _. apply in_or_app. right. left. auto.
      * assert (X := K f G3 None false (touch s f)). destruct X as (X & Y); try discriminate. split; auto.
    + destruct (mtx s); [discriminate|]. inversion E; subst. apply K; discriminate.
    + inversion E; subst; clear E. assert (X := K f D3 None (ready s) (touch s f)). destruct X as (X & Y); try discriminate. split; auto.
  - destruct (runs thr s f && negb (gone s)); [|discriminate].
    assert (X : s' = mkSt (upd (fib s) f D1) (run s) (mtx s) (ready s) (prom s) true (held s) (EDestroy f :: log s)) by (destruct (fib s f); inversion E; auto).
    subst s'. split; cbn [fib log].
    + intros g. destruct (Nat.eq_dec g f) as [->|N]; [rewrite upd_same; discriminate|rewrite upd_other by auto]. intros X. right. auto.
    + destruct (Nat.eq_dec 0 f) as [<-|N]; [rewrite upd_same; discriminate|rewrite upd_other by auto]. intros X. right. auto.
  - destruct (runs thr s f); [|discriminate]. assert (X : fib s' = fib s /\ log s' = log s) by (destruct (fib s f); inversion E; auto). destruct X as (X & Y). split; rewrite X, Y; auto.
Qed.
Lemma inv_reach : forall fs s, reachable (step thr) (init_state fs) s -> inv s.
Proof.
  intros fs s R. apply (reachable_inv (step thr) (fun s => inv s /\ linv s) (init_state fs)) in R; [tauto| |].
  - split; [apply inv_init|]. split; simpl; [intros [|f]; discriminate|discriminate].
  - intros x l y (A & B) E. split; [eapply inv_step; eauto|eapply linv_step; eauto].
Qed.
End F.
