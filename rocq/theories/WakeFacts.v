(** Which queue entries are live, and what the notifications do to them. *)
From Coq Require Import List Arith Bool Lia.
From Verif Require Import Base Kernel KernelFacts.
Import ListNotations.

Definition live (k : kern) (w : waker) : bool := Nat.eqb (epoch (fib k (fst w))) (snd w).

Lemma live_spec k f e : live k (f, e) = true <-> epoch (fib k f) = e.
Proof. unfold live. simpl. apply Nat.eqb_eq. Qed.

Lemma waits_in_det w i e j e' : waits_in w i e -> waits_in w j e' -> i = j /\ e = e'.
Proof.
  intros [A|[[tp A]|[tp A]]] [B|[[tq B]|[tq B]]]; rewrite A in B; inversion B; auto.
Qed.

Lemma kinv_entry_det k qs ws i j f e e' :
  KInv k qs ws -> In (f, e) (qs i) -> In (f, e') (qs j) -> i = j /\ e = e'.
Proof.
  intros H A B. apply (proj2 (ki_q _ _ _ H i)) in A. apply (proj2 (ki_q _ _ _ H j)) in B.
  eapply waits_in_det; eauto.
Qed.

Lemma kinv_nodup_fst k qs ws i : KInv k qs ws -> NoDup (map fst (qs i)).
Proof.
  intros H. pose proof (proj1 (ki_q _ _ _ H i)) as Hn.
  assert (D : forall f e e', In (f, e) (qs i) -> In (f, e') (qs i) -> e = e').
  { intros f e e' A B. eapply (kinv_entry_det k qs ws i i f e e'); eauto. }
  revert Hn D. generalize (qs i). intros l. induction l as [|[f e] l IH]; intros Hn D; simpl; constructor.
  - inversion Hn; subst. intros Hi. apply in_map_iff in Hi. destruct Hi as ([g e'] & E & Hi). simpl in E. subst g.
    assert (e' = e) by (apply (D f); [now right|now left]). subst. contradiction.
  - inversion Hn; subst. apply IH; auto. intros g a b A B. apply (D g); now right.
Qed.

Lemma notify_one_split : forall q k k' q', notify_one k q = (k', q') ->
  (exists q1 f e, q = q1 ++ (f, e) :: q' /\ (forall w, In w q1 -> live k w = false) /\
     live k (f, e) = true /\ k' = fst (wake k (f, e))) \/
  ((forall w, In w q -> live k w = false) /\ k' = k /\ q' = []).
Proof.
  induction q as [|[f e] q IH]; intros k k' q' H; simpl in H.
  - inversion H; subst. right. splits; auto. intros w [].
  - destruct (live k (f, e)) eqn:E.
    + unfold live in E. simpl in E. rewrite E in H. inversion H; subst. left.
      exists [], f, e. splits; auto.
      * intros w [].
      * simpl. now rewrite E.
    + pose proof E as E'. unfold live in E'. simpl in E'. rewrite E' in H.
      destruct (IH _ _ _ H) as [(q1 & g & d & A & B & C & D)|(A & B & C)].
      * left. exists ((f, e) :: q1), g, d. subst q. splits; auto. intros w [<-|Hw]; auto.
      * right. splits; auto. intros w [<-|Hw]; auto.
Qed.

Lemma wake_fib k f e : live k (f, e) = true ->
  fst (wake k (f, e)) =
    mkKern (upd (fib k) f (mkFiber (S e) (running (fib k f)) true (home (fib k f)) (sleep (fib k f))))
           (thr k) (now k) (err k || queued (fib k f)).
Proof. unfold live, wake. simpl. intros ->. reflexivity. Qed.

(** Epochs, and ready marks, only change for a fiber woken by its timer. *)
Lemma kstep_epoch k l k' f : kstep k l = Some k' ->
  epoch (fib k' f) = epoch (fib k f) \/
  (l = Timer f /\ (exists tp, sleep (fib k f) = Some (tp, epoch (fib k f)) /\ tp <= now k) /\
   epoch (fib k' f) = S (epoch (fib k f)) /\ queued (fib k' f) = true /\ running (fib k' f) = running (fib k f) /\ now k' = now k /\
   forall g, g <> f -> fib k' g = fib k g).
Proof.
  intros Hs. destruct l as [g t|g|d]; simpl in Hs.
  - destruct (thr k t); [discriminate|]. destruct (queued (fib k g) && negb (running (fib k g))); [|discriminate].
    inversion Hs; subst; simpl. left. upds; auto.
  - destruct (thr k (home (fib k g))); [discriminate|]. destruct (sleep (fib k g)) as [[tp e]|] eqn:Es; [|discriminate].
    destruct (Nat.leb tp (now k)) eqn:El; [|discriminate]. apply Nat.leb_le in El. inversion Hs; subst; clear Hs.
    destruct (Nat.eq_dec f g) as [->|Hne].
    + unfold wake. simpl. updt. simpl. destruct (Nat.eqb_spec (epoch (fib k g)) e) as [E|E]; simpl; updt; simpl; auto.
      right. subst e. splits; eauto. intros h Hh. now updt.
    + left. unfold wake. simpl. updt. simpl. destruct (Nat.eqb (epoch (fib k g)) e); simpl; now updt.
  - inversion Hs; subst; auto.
Qed.

Lemma filter_eq_single (f : fid) l : NoDup l -> In f l -> filter (fun g => Nat.eqb g f) l = [f].
Proof.
  induction l as [|x l IH]; intros Hn Hi; [destruct Hi|]. inversion Hn; subst. simpl.
  destruct (Nat.eqb_spec x f) as [->|Hne].
  - f_equal. clear - H1. induction l as [|y l IH]; auto. simpl.
    destruct (Nat.eqb_spec y f) as [->|]; [exfalso; apply H1; now left|]. apply IH. intros Hi. apply H1. now right.
  - destruct Hi as [->|Hi]; [congruence|]. auto.
Qed.

Lemma filter_ext_in' {A} (p q : A -> bool) l : (forall x, In x l -> p x = q x) -> filter p l = filter q l.
Proof. induction l as [|x l IH]; simpl; intros H; auto. rewrite (H x) by auto. rewrite IH; auto. Qed.

Lemma filter_map {A B} (g : A -> B) p l : filter p (map g l) = map g (filter (fun x => p (g x)) l).
Proof. induction l as [|x l IH]; simpl; auto. destruct (p (g x)); simpl; congruence. Qed.

Lemma filter_none {A} (p : A -> bool) l : (forall x, In x l -> p x = false) -> filter p l = [].
Proof. induction l as [|x l IH]; simpl; intros H; auto. rewrite (H x) by auto. auto. Qed.

Lemma filter_true {A} (p : A -> bool) l : (forall x, In x l -> p x = true) -> filter p l = l.
Proof. induction l as [|x l IH]; simpl; intros H; auto. rewrite (H x) by auto. now rewrite IH by auto. Qed.

Lemma filter_filter {A} (p q : A -> bool) l : filter p (filter q l) = filter (fun x => q x && p x) l.
Proof.
  induction l as [|x l IH]; simpl; auto. destruct (q x); simpl; auto. destruct (p x); congruence.
Qed.

Lemma live_in_queue k qs ws i f e :
  KInv k qs ws -> In (f, e) (qs i) -> (live k (f, e) = true <-> xblocked (fib k f)).
Proof.
  intros H Hi. rewrite live_spec. split.
  - intros E. apply (proj1 (live_blocked _ _ _ _ _ _ H Hi E)).
  - intros Hb. destruct (blocked_live _ _ _ _ H Hb) as (j & Hj & _).
    eapply (kinv_entry_det k qs ws); eauto.
Qed.

Lemma suspend_and_wait_facts k qs ws f q k' q' e :
  KInv k qs ws -> running (fib k f) = true -> suspend_and_wait k f q = (k', q', e) ->
  (forall g, g <> f -> fib k' g = fib k g) /\ epoch (fib k' f) = e /\ e = S (epoch (fib k f)) /\
  xblocked (fib k' f) /\ q' = q ++ [(f, e)] /\ now k' = now k.
Proof.
  intros H Hr Es. pose proof (kinv_running_not_queued _ _ _ _ H Hr).
  unfold suspend_and_wait, create_waker, suspend, set_fib in Es. inversion Es; subst. unfold xblocked. simpl. updt. simpl. updt. simpl.
  splits; auto. intros g Hg. now updt.
Qed.

Lemma suspend_and_wait_until_facts k qs ws f q tp k' q' e :
  KInv k qs ws -> running (fib k f) = true -> suspend_and_wait_until k f q tp = (k', q', e) ->
  (forall g, g <> f -> fib k' g = fib k g) /\ epoch (fib k' f) = e /\ e = S (epoch (fib k f)) /\
  xblocked (fib k' f) /\ q' = q ++ [(f, e)] /\ now k' = now k.
Proof.
  intros H Hr Es. pose proof (kinv_running_not_queued _ _ _ _ H Hr).
  unfold suspend_and_wait_until, create_waker, wait_until_begin, suspend, set_fib in Es. inversion Es; subst. unfold xblocked. simpl. updt. simpl. updt. simpl.
  splits; auto. intros g Hg. now updt.
Qed.

Lemma NoDup_map_filter {A B} (g : A -> B) p l : NoDup (map g l) -> NoDup (map g (filter p l)).
Proof.
  induction l as [|x l IH]; simpl; intros Hn; [constructor|]. inversion Hn; subst.
  destruct (p x); simpl; auto. constructor; auto. intros Hi. apply H1.
  apply in_map_iff in Hi. destruct Hi as (y & E & Hy). apply filter_In in Hy. apply in_map_iff. exists y. tauto.
Qed.

(** What notify_one / notify_all do, in terms of the fibers put into a ready queue. *)
Lemma notify_one_flips k qs ws i k' q' :
  KInv k qs ws -> notify_one k (qs i) = (k', q') ->
  KInv k' (upd qs i q') ws /\ now k' = now k /\ thr k' = thr k /\
  (forall g, In g (flips k k' (map fst (qs i))) ->
     xblocked (fib k g) /\ In (g, epoch (fib k g)) (qs i) /\ running (fib k' g) = false /\ queued (fib k' g) = true) /\
  (forall g, ~ In g (flips k k' (map fst (qs i))) -> fib k' g = fib k g) /\
  length (flips k k' (map fst (qs i))) <= 1 /\
  (flips k k' (map fst (qs i)) = [] -> forall g e, In (g, e) (qs i) -> ~ xblocked (fib k g)).
Proof.
  intros H En. pose proof (notify_one_inv i (qs i) k qs ws k' q' H eq_refl En) as (K & N1 & N2 & _ & N4).
  pose proof (kinv_nodup_fst _ _ _ i H) as Hnd.
  destruct N4 as [(g & G1 & G2 & G3 & G4 & _)|(-> & -> & G)].
  - assert (E : flips k k' (map fst (qs i)) = [g]).
    { unfold flips. rewrite <- (filter_eq_single g (map fst (qs i)) Hnd) by (apply in_map_iff; exists (g, epoch (fib k g)); auto).
      apply filter_ext_in'. intros x _. destruct (Nat.eqb_spec x g) as [->|Hne].
      - rewrite G3. simpl. destruct G2 as [_ G2]. now rewrite G2.
      - rewrite G4 by auto. now destruct (queued (fib k x)). }
    rewrite E. splits; auto.
    + intros x [<-|[]]. rewrite G3. auto.
    + intros x Hx. apply G4. intros ->. apply Hx. now left.
    + discriminate.
  - assert (E : flips k k (map fst (qs i)) = []).
    { apply filter_none. intros x _. now destruct (queued (fib k x)). }
    rewrite E. splits; auto. intros x [].
Qed.

Lemma notify_all_flips k qs ws i k' q' :
  KInv k qs ws -> notify_all k (qs i) = (k', q') ->
  KInv k' (upd qs i q') ws /\ q' = [] /\ now k' = now k /\ thr k' = thr k /\
  (forall g, In g (flips k k' (map fst (qs i))) ->
     xblocked (fib k g) /\ In (g, epoch (fib k g)) (qs i) /\ running (fib k' g) = false /\ queued (fib k' g) = true) /\
  (forall g, ~ In g (flips k k' (map fst (qs i))) -> fib k' g = fib k g) /\
  NoDup (flips k k' (map fst (qs i))) /\
  (forall g e, In (g, e) (qs i) -> xblocked (fib k g) -> In g (flips k k' (map fst (qs i)))).
Proof.
  intros H En. pose proof (notify_all_inv i (qs i) k qs ws k' q' H eq_refl En) as (K & -> & N1 & N2 & N4 & N5).
  pose proof (kinv_nodup_fst _ _ _ i H) as Hnd.
  assert (Hfl : flips k k' (map fst (qs i)) = map fst (filter (live k) (qs i))).
  { unfold flips. rewrite filter_map. f_equal. apply filter_ext_in'. intros [g e] Hg. simpl.
    destruct (live k (g, e)) eqn:El.
    - apply live_spec in El. subst e. destruct (N4 _ Hg) as [[_ Hb] Hf]. now rewrite Hb, Hf.
    - rewrite N5; [now destruct (queued (fib k g))|].
      intros Hg'. assert (e = epoch (fib k g)) by (eapply (kinv_entry_det k qs); eauto).
      subst e. unfold live in El. simpl in El. rewrite Nat.eqb_refl in El. discriminate. }
  assert (Hfs : forall g, In g (map fst (filter (live k) (qs i))) <-> In (g, epoch (fib k g)) (qs i)).
  { intros g. rewrite in_map_iff. split.
    - intros ([g' e] & E & Hg). simpl in E. subst g'. apply filter_In in Hg. destruct Hg as [Hg Hl].
      apply live_spec in Hl. now rewrite Hl.
    - intros Hg. eexists. split; [|apply filter_In; split; [exact Hg|now apply live_spec]]. reflexivity. }
  rewrite Hfl. splits; auto.
  - intros g Hg. apply Hfs in Hg. destruct (N4 _ Hg) as [A B]. rewrite B. auto.
  - intros g Hg. apply N5. intros X. apply Hg. now apply Hfs.
  - now apply NoDup_map_filter.
  - intros g e Hg Hb. apply Hfs.
    pose proof (proj2 (live_in_queue _ _ _ _ _ _ H Hg) Hb) as L. apply live_spec in L. now rewrite L.
Qed.

Global Arguments suspend_and_wait : simpl never.
Global Arguments suspend_and_wait_until : simpl never.
Global Arguments notify_one : simpl never.
Global Arguments notify_all : simpl never.
Global Arguments kstep : simpl never.
