(** Theorems about context_spinlock_queue (property C45). *)
From Coq Require Import List Arith Bool Lia.
From Verif Require Import Base SpinQueue.
Import ListNotations.

(** ** Specification: what a first-in first-out queue answers, given the calls and answers so far. *)
Section Spec.
Context {A : Type} (pinned : A -> bool).

Fixpoint pushed (os : list (op A)) : list A :=
  match os with [] => [] | Push c :: os' => c :: pushed os' | _ :: os' => pushed os' end.
(** What was handed out by pop and steal, in order. *)
Fixpoint taken (rs : list (res A)) : list A :=
  match rs with [] => [] | RPop (Some c) :: rs' | RSteal (Some c) :: rs' => c :: taken rs' | _ :: rs' => taken rs' end.
(** The answer of a call when [l] are the contexts pushed and not yet taken, oldest first. *)
Definition answer (l : list A) (o : op A) (r : res A) : Prop :=
  match o with
  | Push _ => r = RPush
  | Pop => r = RPop (hd_error l)
  | Steal => r = RSteal (match l with c :: _ => if pinned c then None else Some c | [] => None end)
  | Empty => r = REmpty (match l with [] => true | _ => false end)
  end.
End Spec.

(** ** Proofs *)
Section Proofs.
Context {A : Type} (pinned : A -> bool).

Record wf (q : queue A) (l : list A) : Prop := {
  w_len : length (slots q) = cap q;
  w_c : cidx q < cap q;
  w_l : length l < cap q;
  w_p : pidx q = (cidx q + length l) mod cap q;
  w_n : forall i, i < length l -> nth_error (slots q) ((cidx q + i) mod cap q) = Some (nth_error l i)
}.

Lemma nth_app_l {B} (l1 l2 : list B) i : i < length l1 -> nth_error (l1 ++ l2) i = nth_error l1 i.
Proof. intros. now apply nth_error_app1. Qed.
Lemma nth_firstn {B} (l : list B) n i : i < n -> nth_error (firstn n l) i = nth_error l i.
Proof. revert l i. induction n; intros l i H; [lia|]. destruct l, i; simpl; auto. apply IHn. lia. Qed.
Lemma nth_skipn {B} (l : list B) n i : nth_error (skipn n l) i = nth_error l (n + i).
Proof. revert l. induction n; intros l; simpl; auto. destruct l; simpl; auto. now destruct i. Qed.

Lemma write_ok (l : list (option A)) i c : i < length l ->
  exists m, write l i c = Some m /\ length m = length l /\ nth_error m i = Some (Some c) /\ forall j, j <> i -> nth_error m j = nth_error l j.
Proof.
  intros H. unfold write. destruct (Nat.ltb_spec i (length l)) as [_|]; [|lia]. eexists. split; [reflexivity|]. assert (Lf : length (firstn i l) = i) by (rewrite firstn_length; lia). split; [|split].
  - rewrite app_length. cbn [length]. rewrite Lf, skipn_length. lia.
  - rewrite nth_error_app2 by lia. rewrite Lf, Nat.sub_diag. reflexivity.
  - intros j N. destruct (lt_dec j i).
    + rewrite nth_error_app1 by lia. now apply nth_firstn.
    + rewrite nth_error_app2 by lia. rewrite Lf. destruct (j - i) as [|k] eqn:E; [lia|]. cbn [nth_error]. rewrite nth_skipn. f_equal. lia.
Qed.
Lemma memcpy_ok (d s : list (option A)) doff soff n : soff + n <= length s -> doff + n <= length d ->
  exists m, memcpy d doff s soff n = Some m /\ length m = length d /\ (forall i, i < n -> nth_error m (doff + i) = nth_error s (soff + i)) /\ (forall j, j < doff -> nth_error m j = nth_error d j).
Proof.
  intros H1 H2. unfold memcpy. destruct (Nat.leb_spec (soff + n) (length s)); [|lia]. destruct (Nat.leb_spec (doff + n) (length d)); [|lia]. simpl. eexists. split; [reflexivity|].
  assert (Lf : length (firstn doff d) = doff) by (rewrite firstn_length; lia). assert (Ln : length (firstn n (skipn soff s)) = n) by (rewrite firstn_length, skipn_length; lia). split; [|split].
  - rewrite !app_length, Lf, Ln, skipn_length. lia.
  - intros i Hi. rewrite nth_error_app2 by lia. rewrite Lf. replace (doff + i - doff) with i by lia. rewrite nth_error_app1 by lia. rewrite nth_firstn by lia. apply nth_skipn.
  - intros j Hj. rewrite nth_error_app1 by lia. now apply nth_firstn.
Qed.
Lemma mod_wrap a c : c <> 0 -> a < 2 * c -> a mod c = if a <? c then a else a - c.
Proof.
  intros N H. destruct (Nat.ltb_spec a c); [now apply Nat.mod_small|]. replace a with ((a - c) + 1 * c) at 1 by lia. rewrite Nat.mod_add by lia. apply Nat.mod_small. lia.
Qed.
Lemma create_wf n : 1 <= n -> wf (create n) [].
Proof.
  intros H. constructor; simpl; try lia; try now rewrite repeat_length. now rewrite Nat.mod_0_l by lia.
Qed.
Lemma empty_wf q l : wf q l -> is_empty q = match l with [] => true | _ => false end.
Proof.
  intros W. pose proof (w_c _ _ W). pose proof (w_l _ _ W). unfold is_empty. rewrite (w_p _ _ W), mod_wrap by lia. destruct (Nat.ltb_spec (cidx q + length l) (cap q)); destruct l; simpl in *; match goal with |- (?a =? ?b) = _ => destruct (Nat.eqb_spec a b) end; auto; lia.
Qed.
Lemma front_wf q c l : wf q (c :: l) -> front q = Some c.
Proof.
  intros W. unfold front. pose proof (w_n _ _ W 0) as X. simpl in X. rewrite Nat.add_0_r, Nat.mod_small in X by apply W. rewrite X by lia. reflexivity.
Qed.
Lemma drop_wf q c l : wf q (c :: l) -> wf (drop q) l.
Proof.
  intros W. pose proof (w_c _ _ W) as Hc. pose proof (w_l _ _ W) as Hl. simpl in Hl. constructor; simpl; try apply W; try lia.
  - apply Nat.mod_upper_bound. lia.
  - rewrite (w_p _ _ W). simpl. rewrite Nat.add_mod_idemp_l by lia. f_equal. lia.
  - intros i Hi. rewrite Nat.add_mod_idemp_l by lia. replace (cidx q + 1 + i) with (cidx q + S i) by lia. apply (w_n _ _ W (S i)). simpl. lia.
Qed.
Lemma resize_wf q l : wf q l -> length l = cap q - 1 -> exists q', resize q = Some q' /\ wf q' l /\ cap q' = 2 * cap q.
Proof.
  intros W E. pose proof (w_c _ _ W) as Hc. pose proof (w_len _ _ W) as Hn. assert (Hp : pidx q = if cidx q =? 0 then cap q - 1 else cidx q - 1).
  { rewrite (w_p _ _ W), E. destruct (Nat.eqb_spec (cidx q) 0) as [->|]; [rewrite Nat.mod_small; lia|]. rewrite mod_wrap by lia. destruct (Nat.ltb_spec (cidx q + (cap q - 1)) (cap q)); lia. }
  unfold resize. destruct (Nat.ltb_spec (cap q) (cidx q)); [lia|].
  destruct (memcpy_ok (repeat None (2 * cap q)) (slots q) 0 (cidx q) (cap q - cidx q)) as (m & -> & Lm & M1 & _); [lia|rewrite repeat_length; lia|]. rewrite repeat_length in Lm.
  destruct (Nat.ltb_spec 0 (cidx q)) as [P|P].
  - destruct (Nat.eqb_spec (cidx q) 0); [lia|]. destruct (memcpy_ok m (slots q) (cap q - cidx q) 0 (pidx q)) as (m' & -> & Lm' & M2 & M3); [lia|lia|]. eexists. split; [reflexivity|]. split; [|reflexivity]. constructor; simpl; try lia.
    + rewrite Nat.mod_small; lia.
    + intros i Hi. rewrite Nat.mod_small by lia. rewrite <- (w_n _ _ W i Hi), mod_wrap by lia. destruct (Nat.ltb_spec (cidx q + i) (cap q)).
      * rewrite M3 by lia. rewrite <- (M1 i) by lia. reflexivity.
      * replace i with ((cap q - cidx q) + (cidx q + i - cap q)) at 1 by lia. rewrite M2 by lia. f_equal.
  - assert (Z : cidx q = 0) by lia. rewrite Z in *. eexists. split; [reflexivity|]. split; [|reflexivity]. constructor; simpl; try lia.
    + rewrite Nat.mod_small; lia.
    + intros i Hi. rewrite Nat.mod_small by lia. rewrite <- (w_n _ _ W i Hi), Z. simpl. rewrite Nat.mod_small by lia. apply (M1 i). lia.
Qed.
Lemma push_wf q l c : wf q l -> exists q', push q c = Some q' /\ wf q' (l ++ [c]).
Proof.
  intros W. pose proof (w_c _ _ W) as Hc. pose proof (w_l _ _ W) as Hl. unfold push, is_full. destruct (Nat.eqb_spec (cap q) 0); [lia|].
  assert (X : exists q1, (if cidx q =? (pidx q + 1) mod cap q then resize q else Some q) = Some q1 /\ wf q1 l /\ length l + 1 < cap q1).
  { destruct (Nat.eqb_spec (cidx q) ((pidx q + 1) mod cap q)) as [E|E].
    - assert (Y : length l = cap q - 1).
      { rewrite (w_p _ _ W), Nat.add_mod_idemp_l in E by lia. rewrite mod_wrap in E by lia. destruct (Nat.ltb_spec (cidx q + length l + 1) (cap q)); lia. }
      destruct (resize_wf q l W Y) as (q1 & -> & W1 & C1). exists q1. split; auto. split; auto. lia.
    - exists q. split; auto. split; auto. destruct (Nat.eq_dec (length l + 1) (cap q)) as [Y|]; [|lia]. exfalso. apply E. rewrite (w_p _ _ W), Nat.add_mod_idemp_l by lia. rewrite mod_wrap by lia. destruct (Nat.ltb_spec (cidx q + length l + 1) (cap q)); lia. }
  destruct X as (q1 & -> & W1 & L1). pose proof (w_c _ _ W1) as Hc1. assert (P1 : pidx q1 < cap q1) by (rewrite (w_p _ _ W1); apply Nat.mod_upper_bound; lia).
  destruct (write_ok (slots q1) (pidx q1) c) as (m & -> & Lm & M1 & M2); [rewrite (w_len _ _ W1); lia|]. eexists. split; [reflexivity|]. constructor; simpl.
  - rewrite Lm. apply W1.
  - lia.
  - rewrite app_length. simpl. lia.
  - rewrite (w_p _ _ W1), app_length, Nat.add_mod_idemp_l by lia. f_equal. simpl. lia.
  - intros i Hi. rewrite app_length in Hi. simpl in Hi. destruct (Nat.eq_dec i (length l)) as [->|N].
    + rewrite <- (w_p _ _ W1), M1, nth_error_app2, Nat.sub_diag by lia. reflexivity.
    + rewrite M2.
      * rewrite nth_error_app1 by lia. apply (w_n _ _ W1). lia.
      * rewrite (w_p _ _ W1), !mod_wrap by lia. destruct (Nat.ltb_spec (cidx q1 + i) (cap q1)), (Nat.ltb_spec (cidx q1 + length l) (cap q1)); lia.
Qed.

Lemma step_wf q l o : wf q l -> exists q' r l', step pinned q o = Some (q', r) /\ wf q' l' /\ answer pinned l o r /\ l ++ pushed [o] = taken [r] ++ l'.
Proof.
  intros W. pose proof (empty_wf q l W) as Em. destruct o as [c| | |]; simpl.
  - destruct (push_wf q l c W) as (q' & -> & W'). exists q', RPush, (l ++ [c]). splits; auto.
  - unfold pop. rewrite Em. destruct l as [|c l]; [exists q, (RPop None), []; splits; auto|]. rewrite (front_wf _ _ _ W). exists (drop q), (RPop (Some c)), l. simpl. rewrite app_nil_r. splits; auto. eapply drop_wf; eauto.
  - unfold steal. rewrite Em. destruct l as [|c l]; [exists q, (RSteal None), []; splits; auto|]. rewrite (front_wf _ _ _ W). destruct (pinned c).
    + exists q, (RSteal None), (c :: l). simpl. rewrite app_nil_r. splits; auto.
    + exists (drop q), (RSteal (Some c)), l. simpl. rewrite app_nil_r. splits; auto. eapply drop_wf; eauto.
  - exists q, (REmpty (is_empty q)), l. simpl. rewrite app_nil_r. splits; auto. now rewrite Em.
Qed.
Lemma pushed_cons (o : op A) os : pushed (o :: os) = pushed [o] ++ pushed os.
Proof. now destruct o. Qed.
Lemma taken_cons (r : res A) rs : taken (r :: rs) = taken [r] ++ taken rs.
Proof. now destruct r as [|[]|[]|]. Qed.
Lemma exec_wf os : forall q l, wf q l -> exists q' rs l', exec pinned q os = Some (q', rs) /\ wf q' l' /\ length rs = length os /\ l ++ pushed os = taken rs ++ l' /\
  forall i o, nth_error os i = Some o -> exists r l0, nth_error rs i = Some r /\ answer pinned l0 o r /\ l ++ pushed (firstn i os) = taken (firstn i rs) ++ l0.
Proof.
  induction os as [|o os IH]; intros q l W; simpl exec.
  - exists q, [], l. simpl. rewrite app_nil_r. splits; auto. intros [|i] o; discriminate.
  - destruct (step_wf q l o W) as (q1 & r & l1 & -> & W1 & An & E1). destruct (IH q1 l1 W1) as (q2 & rs & l2 & -> & W2 & Ln & E2 & P). exists q2, (r :: rs), l2. split; auto. split; auto. split; [simpl; congruence|]. split.
    + rewrite pushed_cons, taken_cons, app_assoc, E1, <- !app_assoc. f_equal. exact E2.
    + intros [|i] o' Ho.
      * simpl in Ho. injection Ho as <-. exists r, l. simpl. rewrite app_nil_r. splits; auto.
      * simpl in Ho. destruct (P i o' Ho) as (r' & l0 & Hr & An' & E'). exists r', l0. split; auto. split; auto. simpl firstn. rewrite pushed_cons, taken_cons, app_assoc, E1, <- !app_assoc. f_equal. exact E'.
Qed.
Lemma pops_wf l : forall q, wf q l -> exists q', exec pinned q (repeat Pop (length l)) = Some (q', map (fun c => RPop (Some c)) l) /\ wf q' [].
Proof.
  induction l as [|c l IH]; intros q W; simpl.
  - exists q. auto.
  - unfold pop. rewrite (empty_wf _ _ W), (front_wf _ _ _ W). destruct (IH (drop q) (drop_wf _ _ _ W)) as (q' & -> & W'). exists q'. auto.
Qed.
End Proofs.

(** ** C45. For every capacity of at least 1 and every sequence of calls - from any number of threads, in the order in which they obtain the spinlock, with any number of enlargements of the array - no access is out of bounds and no unwritten slot is read, every call answers as the queue of the contexts [l] that were pushed and not yet taken (in order of the pushes) has to: pop takes the oldest one, steal takes the oldest one unless it is pinned. *)
Theorem C45_fifo (A : Type) (pinned : A -> bool) n (os : list (op A)) : 1 <= n ->
  exists q rs, exec pinned (create n) os = Some (q, rs) /\ length rs = length os /\
    forall i o, nth_error os i = Some o -> exists r l, nth_error rs i = Some r /\ answer pinned l o r /\ pushed (firstn i os) = taken (firstn i rs) ++ l.
Proof.
  intros H. destruct (exec_wf pinned os (create n) [] (create_wf n H)) as (q & rs & l & E & _ & Ln & _ & P). exists q, rs. auto.
Qed.
(** Each pushed context is taken exactly once, in order: what has been taken is a prefix of what was pushed, and popping hands out exactly the rest, after which the queue is empty. *)
Theorem C45_exactly_once (A : Type) (pinned : A -> bool) n (os : list (op A)) q rs : 1 <= n -> exec pinned (create n) os = Some (q, rs) ->
  exists rest, pushed os = taken rs ++ rest /\ exists q', exec pinned q (repeat Pop (length rest)) = Some (q', map (fun c => RPop (Some c)) rest) /\ step pinned q' Empty = Some (q', REmpty true).
Proof.
  intros H E. destruct (exec_wf pinned os (create n) [] (create_wf n H)) as (q1 & rs1 & l & E' & W & _ & Eq & _). rewrite E' in E. injection E as -> ->. exists l. split; auto. destruct (pops_wf pinned l q W) as (q' & E2 & W'). exists q'. split; auto. simpl. now rewrite (empty_wf _ _ W').
Qed.
(** steal() never hands out a pinned context and leaves the queue as it was when it answers nullptr. *)
Theorem C45_steal_pinned (A : Type) (pinned : A -> bool) n (os : list (op A)) q rs : 1 <= n -> exec pinned (create n) os = Some (q, rs) ->
  forall q' o, step pinned q Steal = Some (q', RSteal o) -> match o with Some c => pinned c = false | None => q' = q end.
Proof.
  intros H E q' o St. simpl in St. unfold steal in St. destruct (is_empty q); [injection St as <- <-; auto|]. destruct (front q) as [c|]; [|discriminate]. destruct (pinned c) eqn:P; injection St as <- <-; auto.
Qed.

(** Capacity 1, so that the array is enlarged twice, once while the contents wrap around; 7 is pinned and not stolen. *)
Example C45_ex : exists q, exec (Nat.eqb 7) (create 1) [Push 1; Steal; Push 7; Push 3; Steal; Push 4; Push 5; Pop; Pop; Steal; Empty; Pop; Pop; Empty] =
  Some (q, [RPush; RSteal (Some 1); RPush; RPush; RSteal None; RPush; RPush; RPop (Some 7); RPop (Some 3); RSteal (Some 4); REmpty false; RPop (Some 5); RPop None; REmpty true]).
Proof. eexists. vm_compute. reflexivity. Qed.

Print Assumptions C45_fifo.
Print Assumptions C45_exactly_once.
Print Assumptions C45_steal_pinned.
