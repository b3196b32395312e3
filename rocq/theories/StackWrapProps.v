(** C157: stacks and wrapped allocators. *)
From Coq Require Import List Arith Bool Lia.
From Verif Require Import Base StackWrap.
Import ListNotations.

(** Specification of a log (newest first): a living allocator gives each stack once; a stack goes back once, to the allocator it is from, which is alive; an allocator is destroyed once, when all its stacks are back. *)
Fixpoint fine (h : list event) : Prop :=
  match h with
  | [] => True
  | e :: r => fine r /\ match e with
      | EAlloc a n => ~ In (EDestroy a) r /\ (forall b, ~ In (EAlloc b n) r)
      | EDealloc a n => In (EAlloc a n) r /\ ~ In (EDestroy a) r /\ (forall b, ~ In (EDealloc b n) r)
      | EDestroy a => ~ In (EDestroy a) r /\ (forall n, In (EAlloc a n) r -> In (EDealloc a n) r)
      end
  end.

Record inv (s : st) : Prop := mkInv {
  i_w : forall w a, wr s w = Some (Some a) -> a < na s /\ ~ In (EDestroy a) (log s);
  i_f : forall f a n, fibs s f = Some (a, n) -> a < na s /\ n < ns s /\ ~ In (EDestroy a) (log s) /\ In (EAlloc a n) (log s) /\ forall b, ~ In (EDealloc b n) (log s);
  i_ww : forall w w' a, wr s w = Some (Some a) -> wr s w' = Some (Some a) -> w = w';
  i_wf : forall w f a n, wr s w = Some (Some a) -> fibs s f = Some (a, n) -> False;
  i_ff : forall f g a n m, fibs s f = Some (a, n) -> fibs s g = Some (a, m) -> f = g;
  i_a : forall a, a < na s -> In (EDestroy a) (log s) \/ (exists w, wr s w = Some (Some a)) \/ (exists f n, fibs s f = Some (a, n));
  i_al : forall a n, In (EAlloc a n) (log s) -> n < ns s /\ (In (EDealloc a n) (log s) \/ exists f, fibs s f = Some (a, n));
  i_d : forall a, In (EDestroy a) (log s) -> a < na s;
  i_fs : forall f g a b n, fibs s f = Some (a, n) -> fibs s g = Some (b, n) -> f = g;
  i_ok : fine (log s) }.

(** Destroying an allocator that no fiber has. *)
Lemma fine_destroy : forall s v, inv s -> (forall a, v = Some a -> a < na s /\ ~ In (EDestroy a) (log s) /\ forall f n, fibs s f <> Some (a, n)) -> fine (destroy v (log s)).
Proof.
  intros s [a|] I H; simpl; [|apply I]. destruct (H a eq_refl) as (_ & N & F). split; [apply I|]. split; auto. intros n A. apply (i_al s I) in A as (_ & [A|(f & A)]); auto. exfalso. eapply F; eauto.
Qed.
Lemma destroy_in : forall v h e, In e (destroy v h) <-> In e h \/ exists a, v = Some a /\ e = EDestroy a.
Proof. intros [a|] h e; simpl; split; intros H; [destruct H as [<-|H]; eauto|destruct H as [H|(b & E & ->)]; auto; injection E as <-; auto|auto|destruct H as [H|(b & E & _)]; [auto|discriminate]]. Qed.

Lemma inv_step : forall s l s', inv s -> step s l = Some s' -> inv s'.
Proof.
  intros s l s' I St. pose proof I as [Iw If Iww Iwf Iff Ia Ial Id Ifs Iok]. destruct l as [w|d x|d x|w|f w|f]; simpl in St.
  - destruct (wr s w) eqn:E; [discriminate|]. injection St as <-. constructor; simpl; auto.
    + intros u a H. upds; [injection H as <-; split; [lia|intros X; apply Id in X; lia]|]. destruct (Iw _ _ H). split; auto.
    + intros f a n H. destruct (If _ _ _ H) as (A & B). split; auto.
    + intros u u' a H H'. upds; auto; try (injection H as <-; apply Iw in H'; lia); try (injection H' as <-; apply Iw in H; lia). eauto.
    + intros u f a n H H'. upds; [injection H as <-; apply If in H'; lia|eauto].
    + intros a L. destruct (Nat.eq_dec a (na s)) as [->|N]; [right; left; exists w; now rewrite upd_same|]. destruct (Ia a) as [A|[(u & A)|A]]; [lia|auto| |auto]. right; left. exists u. upds; congruence.
    + intros a H. apply Id in H. lia.
  - destruct (wr s d) eqn:E; [discriminate|]. destruct (wr s x) as [v|] eqn:X; [|discriminate]. injection St as <-. assert (Nd : d <> x) by congruence. constructor; simpl; auto.
    + intros u a H. upds; try discriminate; [injection H as ->|]; eauto.
    + intros u u' a H H'. upds; auto; try discriminate; try (injection H as ->; exfalso; assert (x = u') by eauto; congruence); try (injection H' as ->; exfalso; assert (x = u) by eauto; congruence). eauto.
    + intros u f a n H H'. upds; try discriminate; [injection H as ->|]; eauto.
    + intros a L. destruct (Ia a L) as [A|[(u & A)|A]]; auto. right; left. destruct (Nat.eq_dec u x) as [->|N]; [exists d; rewrite upd_other, upd_same by auto; congruence|exists u; rewrite !upd_other; auto; congruence].
  - destruct (wr s d) as [old|] eqn:E; [|discriminate]. destruct (wr s x) as [v|] eqn:X; [|discriminate]. destruct (Nat.eqb_spec d x) as [->|Nd]; [injection St as <-; auto|]. injection St as <-. constructor; simpl.
    + intros u a H. rewrite destroy_in. upds; try discriminate.
      * injection H as ->. destruct (Iw _ _ X) as [A B]. split; auto. intros [C|(b & -> & C)]; auto. injection C as <-. apply Nd. eauto.
      * destruct (Iw _ _ H) as [A B]. split; auto. intros [C|(b & -> & C)]; auto. injection C as <-. apply n0. eauto.
    + intros f a n H. destruct (If _ _ _ H) as (A & B & C & D & F). splits; auto; try (rewrite destroy_in); auto.
      * intros [G|(b & -> & G)]; auto. injection G as <-. eauto.
      * intros b. rewrite destroy_in. intros [G|(c & -> & G)]; [eapply F; eauto|discriminate].
    + intros u u' a H H'. upds; auto; try discriminate; try (injection H as ->; exfalso; assert (x = u') by eauto; congruence); try (injection H' as ->; exfalso; assert (x = u) by eauto; congruence). eauto.
    + intros u f a n H H'. upds; try discriminate; [injection H as ->|]; eauto.
    + eauto.
    + intros a L. rewrite destroy_in. destruct (Ia a L) as [A|[(u & A)|A]]; auto. destruct (Nat.eq_dec u d) as [->|N]; [left; right; exists a; split; congruence|]. right; left.
      destruct (Nat.eq_dec u x) as [->|N']; [exists d; rewrite upd_other, upd_same by auto; congruence|exists u; rewrite !upd_other; auto].
    + intros a n H. rewrite destroy_in in H. destruct H as [H|(b & _ & H)]; [|discriminate]. destruct (Ial _ _ H) as [A [B|B]]; split; auto. left. rewrite destroy_in. auto.
    + intros a H. rewrite destroy_in in H. destruct H as [H|(b & -> & H)]; auto. injection H as <-. apply Iw in E. lia.
    + eauto.
    + apply fine_destroy; auto. intros a ->. destruct (Iw _ _ E). split; [auto|]. split; [auto|]. intros f m H'. eauto.
  - destruct (wr s w) as [v|] eqn:E; [|discriminate]. injection St as <-. constructor; simpl.
    + intros u a H. rewrite destroy_in. upds; try discriminate. destruct (Iw _ _ H) as [A B]. split; auto. intros [C|(b & -> & C)]; auto. injection C as <-. apply n. eauto.
    + intros f a n H. destruct (If _ _ _ H) as (A & B & C & D & F). splits; auto; try (rewrite destroy_in); auto.
      * intros [G|(b & -> & G)]; auto. injection G as <-. eauto.
      * intros b. rewrite destroy_in. intros [G|(c & -> & G)]; [eapply F; eauto|discriminate].
    + intros u u' a H H'. upds; try discriminate; eauto.
    + intros u f a n H H'. upds; try discriminate; eauto.
    + eauto.
    + intros a L. rewrite destroy_in. destruct (Ia a L) as [A|[(u & A)|A]]; auto. destruct (Nat.eq_dec u w) as [->|N]; [left; right; exists a; split; congruence|]. right; left. exists u. rewrite upd_other; auto.
    + intros a n H. rewrite destroy_in in H. destruct H as [H|(b & _ & H)]; [|discriminate]. destruct (Ial _ _ H) as [A [B|B]]; split; auto. left. rewrite destroy_in. auto.
    + intros a H. rewrite destroy_in in H. destruct H as [H|(b & -> & H)]; auto. injection H as <-. apply Iw in E. lia.
    + eauto.
    + apply fine_destroy; auto. intros a ->. destruct (Iw _ _ E). split; [auto|]. split; [auto|]. intros f m H'. eauto.
  - destruct (fibs s f) eqn:E; [discriminate|]. destruct (wr s w) as [[a0|]|] eqn:W; [|injection St as <-; constructor; simpl; auto|discriminate]. injection St as <-. destruct (Iw _ _ W) as [Wa Wd].
    assert (Fr : forall b, ~ In (EDealloc b (ns s)) (log s)).
    { intros b H. assert (X : forall h, fine h -> In (EDealloc b (ns s)) h -> In (EAlloc b (ns s)) h).
      { clear. induction h as [|e h IH]; simpl; [tauto|]. intros [F1 F2] [->|H]; [right; apply F2|right; auto]. }
      apply X in H; auto. apply Ial in H. lia. }
    constructor; simpl.
    + intros u a H. upds; try discriminate. destruct (Iw _ _ H). split; auto. intros [X|X]; [discriminate|auto].
    + intros g a n H. upds; [injection H as <- <-; splits; auto; try lia; [intros [X|X]; [discriminate|auto]|intros b [X|X]; [discriminate|eapply Fr; eauto]]|].
      destruct (If _ _ _ H) as (A & B & C & D & G). splits; auto; [intros [X|X]; [discriminate|auto]|intros b [X|X]; [discriminate|eapply G; eauto]].
    + intros u u' a H H'. upds; try discriminate; eauto.
    + intros u g a n H H'. upds; try discriminate; [|eauto]. injection H' as <- <-. apply n0. eauto.
    + intros g g' a n m H H'. upds; auto; try (injection H as <- <-; exfalso; now eauto); try (injection H' as <- <-; exfalso; now eauto). eauto.
    + intros a L. destruct (Ia a L) as [A|[(u & A)|(g & n & A)]]; [auto| |right; right; exists g, n; upds; congruence].
      right. destruct (Nat.eq_dec u w) as [->|N]; [right; exists f, (ns s); rewrite upd_same; congruence|left; exists u; rewrite upd_other; auto].
    + intros a n [H|H]; [injection H as <- <-; split; [lia|right; exists f; now rewrite upd_same]|]. destruct (Ial _ _ H) as [A [B|(g & B)]]; (split; [lia|]); [auto|right; exists g; upds; congruence].
    + intros a [H|H]; [discriminate|auto].
    + intros g g' a b n H H'. upds; auto; try (injection H as <- <-; apply If in H'; lia); try (injection H' as <- <-; apply If in H; lia). eauto.
    + split; auto. split; auto. intros b H. apply Ial in H. lia.
  - destruct (fibs s f) as [[a0 n0]|] eqn:E; [|discriminate]. injection St as <-. destruct (If _ _ _ E) as (Fa & Fn & Fd & Fal & Fde). constructor; simpl.
    + intros u a H. destruct (Iw _ _ H). split; auto. intros [X|[X|X]]; [injection X as <-; eauto|discriminate|auto].
    + intros g a n H. upds; [discriminate|]. destruct (If _ _ _ H) as (A & B & C & D & G). splits; auto.
      * intros [X|[X|X]]; [injection X as <-; apply n1; eauto|discriminate|auto].
      * intros b [X|[X|X]]; [discriminate|injection X as <- <-; apply n1; eauto|eapply G; eauto].
    + eauto.
    + intros u g a n H H'. upds; [discriminate|eauto].
    + intros g g' a n m H H'. upds; try discriminate. eauto.
    + intros a L. destruct (Ia a L) as [A|[A|(g & n & A)]]; auto. destruct (Nat.eq_dec g f) as [->|N]; [left; left; congruence|]. right; right. exists g, n. rewrite upd_other; auto.
    + intros a n [H|[H|H]]; try discriminate. destruct (Ial _ _ H) as [A [B|(g & B)]]; (split; [auto|]); auto. destruct (Nat.eq_dec g f) as [->|N]; [left; right; left; congruence|]. right. exists g. rewrite upd_other; auto.
    + intros a [H|[H|H]]; [injection H as <-; auto|discriminate|auto].
    + intros g g' a b n H H'. upds; try discriminate. eauto.
    + split; [split; auto|]. split; [intros [X|X]; [discriminate|auto]|]. intros n [X|X]; [discriminate|]. destruct (Ial _ _ X) as [_ [B|(g & B)]]; auto. assert (g = f) as -> by eauto. left. congruence.
Qed.
Lemma inv_init : inv init.
Proof. constructor; simpl; try discriminate; try tauto. intros a L. lia. Qed.
Lemma inv_reach : forall s, reachable step init s -> inv s.
Proof. apply (reachable_inv step inv init); [apply inv_init|]. intros s l s' I St. eapply inv_step; eauto. Qed.

(** C157: whatever is moved, assigned, destroyed and used for fibers. *)
Theorem C157_fine : forall s, reachable step init s -> fine (log s).
Proof. intros s R. apply (inv_reach s R). Qed.
Print Assumptions C157_fine.
(** C157: a fiber that exists has its stack, and the allocator the stack is from is alive. *)
Theorem C157_fiber : forall s f a n, reachable step init s -> fibs s f = Some (a, n) -> In (EAlloc a n) (log s) /\ ~ In (EDestroy a) (log s) /\ forall b, ~ In (EDealloc b n) (log s).
Proof. intros s f a n R H. destruct (i_f s (inv_reach s R) _ _ _ H) as (_ & _ & A & B & C). auto. Qed.
Print Assumptions C157_fiber.
(** C157: nothing leaks: when all wrappers are destroyed and all fibers have ended, all stacks are back and all allocators destroyed. *)
Theorem C157_quiescent : forall s, reachable step init s -> (forall w, wr s w = None) -> (forall f, fibs s f = None) ->
  (forall a n, In (EAlloc a n) (log s) -> In (EDealloc a n) (log s)) /\ forall a, a < na s -> In (EDestroy a) (log s).
Proof.
  intros s R W F. pose proof (inv_reach s R) as I. split.
  - intros a n H. destruct (i_al s I _ _ H) as [_ [A|(f & A)]]; auto. rewrite F in A. discriminate.
  - intros a L. destruct (i_a s I a L) as [A|[(w & A)|(f & n & A)]]; auto; [rewrite W in A|rewrite F in A]; discriminate.
Qed.
Print Assumptions C157_quiescent.
(** A wrapper cannot be used again after it has been moved: its pointer is null and is dereferenced without a test. *)
Example C157_null_case : exists s, reachable step init s /\ ub s = true.
Proof. apply (reach_by step init [LMake 0; LCreate 0 0; LCreate 1 0]). vm_compute. reflexivity. Qed.
(** The use of a moved wrapper for a fiber is the only way to get there. *)
Theorem C157_null : forall s l s', ub s = false -> step s l = Some s' -> ub s' = true -> exists f w, l = LCreate f w /\ forall a, wr s w <> Some (Some a).
Proof.
  intros s l s' U St V. destruct l as [w|d x|d x|w|f w|f]; simpl in St.
  - destruct (wr s w); [discriminate|]. injection St as <-. simpl in V. congruence.
  - destruct (wr s d), (wr s x); try discriminate. injection St as <-. simpl in V. congruence.
  - destruct (wr s d), (wr s x); try discriminate. destruct (d =? x); injection St as <-; simpl in V; congruence.
  - destruct (wr s w); [|discriminate]. injection St as <-. simpl in V. congruence.
  - exists f, w. split; auto. intros a W. rewrite W in St. destruct (fibs s f); [discriminate|]. injection St as <-. simpl in V. congruence.
  - destruct (fibs s f) as [[a n]|]; [|discriminate]. injection St as <-. simpl in V. congruence.
Qed.
Print Assumptions C157_null.

(** Three allocators, a move, an assignment over a wrapper, two fibers, everything ended. *)
Definition run3 : list label := [LMake 0; LMake 1; LMoveCtor 2 0; LMake 3; LMoveAssign 1 2; LCreate 7 1; LCreate 8 3; LDrop 0; LDrop 1; LEnd 8; LDrop 2; LDrop 3; LEnd 7].
Example C157_case : exists s, reachable step init s /\ na s = 3 /\ log s = [EDestroy 0; EDealloc 0 0; EDestroy 2; EDealloc 2 1; EAlloc 2 1; EAlloc 0 0; EDestroy 1] /\ wr s 1 = None /\ fibs s 7 = None.
Proof. apply (reach_by step init run3). vm_compute. splits; reflexivity. Qed.
Example C157_case_fiber : exists s, reachable step init s /\ fibs s 7 = Some (0, 0) /\ wr s 1 = Some None.
Proof. apply (reach_by step init (firstn 7 run3)). vm_compute. split; reflexivity. Qed.
