(** Invariants for the accesses to owner_. *)
From Coq Require Import List Arith Bool Lia.
From Verif Require Import Base OwnerRace OwnerRaceSpec.
Import ListNotations.

Definition inside (p : pc) : bool := match p with Self _ | Free _ | Write _ | Rel _ _ _ => true | _ => false end.
(** What a fiber knows about owner_. *)
Definition knows (s : st) (f : nat) : Prop :=
  match fib s f with
  | Free TryLock => mine s f = false
  | Free Unlock => False
  | Write Unlock => mine s f = true
  | Write _ => owner s = None
  | Rel TryLock t false => mine s f = t
  | Again t => mine s f = t
  | _ => True
  end.
Record inv (s : st) : Prop := {
  i_in : forall f, inside (fib s f) = true -> splk s = Some f;
  i_know : forall f, knows s f;
  i_ret : forall f t r, In (ERet f TryLock t false r) (log s) -> r = t
}.
Lemma inv_init : inv init_state.
Proof. split; simpl; try discriminate; try tauto. intros f. exact I. Qed.

(** A step of f that leaves owner_ alone. *)
Lemma inv_keep : forall s f k p es, inv s ->
  (forall g, g <> f -> inside (fib s g) = true -> k = Some g) -> (inside p = true -> k = Some f) ->
  knows (mkSt k (owner s) (upd (fib s) f p) (es ++ log s)) f ->
  (forall g t r, In (ERet g TryLock t false r) es -> r = t) ->
  inv (mkSt k (owner s) (upd (fib s) f p) (es ++ log s)).
Proof.
  intros s f k p es I Ho Hp Hk He. destruct I as [Ii Ik Ir]. split; cbn [splk owner fib log].
  - intros g. destruct (Nat.eq_dec g f) as [->|N]; [rewrite upd_same; auto|rewrite upd_other by auto; auto].
  - intros g. destruct (Nat.eq_dec g f) as [->|N]; [exact Hk|]. specialize (Ik g). unfold knows, mine in *. cbn [fib owner] in *. rewrite upd_other by auto. exact Ik.
  - intros g t r X. apply in_app_or in X. destruct X as [X|X]; eauto.
Qed.

Lemma inv_step : forall s l s', inv s -> step s l = Some s' -> inv s'.
Proof.
  intros s l s' I E. pose proof (i_in s I) as Ii. pose proof (i_know s I) as Ik.
  assert (K : forall f p, inside (fib s f) = inside p -> knows (mkSt (splk s) (owner s) (upd (fib s) f p) (log s)) f -> inv (put s f p)).
  { intros f p H Hk. apply (inv_keep s f (splk s) p []); auto; [|simpl; tauto]. rewrite <- H. auto. }
  assert (NK : forall f p, match p with Self _ | Rel _ _ true | Idle | At0 _ | Susp _ | Free Lock | Free TryUntil | Rel Lock _ _ | Rel Unlock _ _ | Rel TryUntil _ _ => True | _ => False end -> forall k es, knows (mkSt k (owner s) (upd (fib s) f p) es) f).
  { intros f p H k es. unfold knows. cbn [fib]. rewrite upd_same. destruct p as [| |o|[]|[]|[] ? []| |]; simpl in *; tauto. }
  assert (Only : forall f, inside (fib s f) = true -> forall g k, g <> f -> inside (fib s g) = true -> k = Some g).
  { intros f H g k N G. pose proof (Ii f H). pose proof (Ii g G). congruence. }
  destruct l as [f o|f|f|f]; simpl in E.
  - destruct (fib s f) eqn:F; try discriminate. inversion E; subst; clear E. apply K; [now rewrite F|]. now apply NK.
  - unfold go in E. pose proof (Ik f) as Kf. unfold knows in Kf. destruct (fib s f) as [|o|o|o|o|o t e|o|t] eqn:F; try discriminate.
    + destruct (splk s) eqn:S; [discriminate|]. inversion E; subst; clear E. apply (inv_keep s f (Some f) (first o) []); auto; [|apply NK; destruct o; simpl; auto|simpl; tauto].
      intros g N G. specialize (Ii g G). congruence.
    + destruct o; inversion E; subst; clear E; (destruct (mine s f) eqn:M; (apply K; [rewrite F; reflexivity|]); first [apply NK; exact Logic.I|unfold knows, mine; cbn [fib owner]; rewrite upd_same; exact M]).
    + assert (OC : (exists w, owner s = Some w) \/ owner s = None) by (destruct (owner s); eauto). destruct OC as [(w & O)|O]; rewrite O in E.
      * destruct o; inversion E; subst; clear E.
        -- rewrite <- O. apply (inv_keep s f None (Susp Lock) []); auto; try solve [discriminate | simpl; tauto | apply NK; exact Logic.I | intros g N G; apply (Only f); auto; now rewrite F].
        -- apply K; [rewrite F; reflexivity|]. unfold knows, mine in *. cbn [fib owner] in *. rewrite upd_same. exact Kf.
        -- destruct Kf.
        -- rewrite <- O. apply (inv_keep s f None (Susp TryUntil) []); auto; try solve [discriminate | simpl; tauto | apply NK; exact Logic.I | intros g N G; apply (Only f); auto; now rewrite F].
      * inversion E; subst; clear E. apply K; [now rewrite F|]. unfold knows, mine. cbn [fib owner]. rewrite upd_same. destruct o; auto.
    + inversion E; subst; clear E. split; cbn [splk owner fib log].
      * intros g. destruct (Nat.eq_dec g f) as [->|N]; [intros _; apply Ii; now rewrite F|rewrite upd_other by auto; auto].
      * intros g. destruct (Nat.eq_dec g f) as [->|N]; [unfold knows, mine; cbn [fib owner]; rewrite upd_same; destruct o; auto; now rewrite Nat.eqb_refl|].
        assert (Out : inside (fib s g) = false) by (destruct (inside (fib s g)) eqn:G; auto; pose proof (Ii g G); pose proof (Ii f) as Z; rewrite F in Z; specialize (Z eq_refl); congruence).
        pose proof (Ik g) as Kg. unfold knows, mine in *. cbn [fib owner] in *. rewrite upd_other by auto. destruct (fib s g); try discriminate; auto.
        destruct o; simpl in *; try (rewrite Kf in Kg; simpl in Kg; subst; now apply Nat.eqb_neq; auto).
        destruct (owner s) as [w|]; [|discriminate]. apply Nat.eqb_eq in Kf. subst w. rewrite <- Kg. symmetry. now apply Nat.eqb_neq; auto.
      * exact (i_ret s I).
    + assert (Z : forall p es, inside p = false -> knows (mkSt None (owner s) (upd (fib s) f p) (es ++ log s)) f -> (forall g t r, In (ERet g TryLock t false r) es -> r = t) -> inv (mkSt None (owner s) (upd (fib s) f p) (es ++ log s))).
      { intros p es Hp Hk He. apply inv_keep; auto; [|congruence]. intros g N G. apply (Only f); auto. now rewrite F. }
      destruct o.
      * inversion E; subst; clear E. apply (Z Idle [_]); try solve [reflexivity | apply NK; exact Logic.I | intros g t' r [X|[]]; inversion X].
      * destruct e; inversion E; subst; clear E.
        -- apply (Z Idle [_]); try solve [reflexivity | apply NK; exact Logic.I | intros g t' r [X|[]]; inversion X].
        -- apply (Z (Again _) []); try solve [reflexivity | simpl; tauto]. unfold knows, mine in *. cbn [fib owner] in *. now rewrite upd_same.
      * inversion E; subst; clear E. apply (Z Idle [_]); try solve [reflexivity | apply NK; exact Logic.I | intros g t' r [X|[]]; inversion X].
      * inversion E; subst; clear E. apply (Z Idle [_]); try solve [reflexivity | apply NK; exact Logic.I | intros g t' r [X|[]]; inversion X].
    + inversion E; subst; clear E. apply (inv_keep s f (splk s) Idle [_]); try solve [auto | discriminate | apply NK; exact Logic.I]. intros g t' r [X|[]]; inversion X; subst. auto.
  - destruct (fib s f) eqn:F; try discriminate. inversion E; subst; clear E. apply K; [now rewrite F|]. apply NK; simpl; auto.
  - destruct (fib s f) as [| | | | | |[]|] eqn:F; try discriminate. inversion E; subst; clear E. apply (inv_keep s f (splk s) Idle [_]); try solve [auto | discriminate | apply NK; exact Logic.I]. intros g t' r [X|[]]; inversion X.
Qed.
Lemma inv_reach : forall s, reachable step init_state s -> inv s.
Proof. apply (reachable_inv step inv init_state inv_init). intros; eapply inv_step; eauto. Qed.

(** Without try_lock() nobody reads owner_ outside of the spinlock. *)
Definition quiet (p : pc) : bool := match p with At0 TryLock | Self TryLock | Free TryLock | Write TryLock | Rel TryLock _ _ | Susp TryLock | Again _ => false | _ => true end.
Lemma no_try_inv : forall s, no_try s -> inv s /\ forall f, quiet (fib s f) = true.
Proof.
  induction 1 as [|s l s' P (I & Q) E N]; [split; [apply inv_init|reflexivity]|]. split; [eapply inv_step; eauto|].
  assert (K : forall f p, quiet p = true -> forall g, quiet (upd (fib s) f p g) = true) by (intros f p Hp g; destruct (Nat.eq_dec g f) as [->|D]; [now rewrite upd_same|now rewrite upd_other by auto]).
  destruct l as [f o|f|f|f]; simpl in E.
  - destruct (fib s f); inversion E; subst. apply K. destruct o; auto. destruct (N f eq_refl).
  - unfold go in E. pose proof (Q f) as Qf. destruct (fib s f) as [|o|o|o|o|o t e|o|t] eqn:F; try discriminate.
    + destruct (splk s); [discriminate|]. inversion E; subst. apply K. destruct o; auto.
    + destruct o; inversion E; subst; apply K; destruct (mine s f); auto.
    + destruct (owner s); [destruct o|]; inversion E; subst; apply K; auto; destruct o; auto.
    + inversion E; subst. apply K. destruct o; auto.
    + destruct o; try discriminate; inversion E; subst; apply K; auto.
  - pose proof (Q f) as Qf. destruct (fib s f) as [| | | | | |o|]; inversion E; subst. apply K. destruct o; auto.
  - destruct (fib s f) as [| | | | | |[]|]; inversion E; subst. apply K; auto.
Qed.

