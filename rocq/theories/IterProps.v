(** C56: channel iterators. *)
From Coq Require Import List Arith Bool Lia.
From Verif Require Import Base Iter IterSpec.
Import ListNotations.

(** ** Every element is destroyed twice when its iterator is advanced. *)
Theorem C56_advance_destroys_twice s i n v o s' : exists_ s i = true -> chan s i = true -> sto s i = Obj n v true -> step s (Inc i o) = Some s' ->
  destroyed (log s') n = 2 + destroyed (log s) n.
Proof.
  intros X C So St. simpl in St. rewrite X in St. injection St as <-. unfold increment, destroy. rewrite So. simpl. rewrite C. updt. destruct o; simpl; updt; rewrite Nat.eqb_refl; reflexivity.
Qed.
(** ** The elements of a loop over the whole channel are seen in order, each once, and the loop ends when value_pop() throws; nothing is read that is not alive. Each element is destroyed twice. *)
Lemma rest_exec vs : forall s i n v, exists_ s i = true -> chan s i = true -> sto s i = Obj n v true -> n < next s ->
  exists s', exec step s (rest i vs) = Some s' /\ exists_ s' i = true /\ reads (log s') = reads (log s) ++ vs /\ hd_error (log s') = Some (ECompare i true) /\ next s' = next s + length vs /\
    (forall j, ~ In (EReadBad j) (log s) -> ~ In (EReadBad j) (log s')) /\ (forall m, destroyed (log s') m = destroyed (log s) m + (if (m =? n) || ((next s <=? m) && (m <? next s + length vs)) then 2 else 0)).
Proof.
  induction vs as [|w vs IH]; intros s i n v X C So Hn.
  - assert (Z : forall m, (next s <=? m) && (m <? next s + length (@nil nat)) = false) by (intros m; cbn [length]; rewrite Nat.add_0_r; destruct (Nat.leb_spec (next s) m); destruct (Nat.ltb_spec m (next s)); auto; lia).
    cbn [rest exec step]. rewrite X. unfold increment, destroy. rewrite So. cbn. rewrite C. cbn. updt. cbn. rewrite X. cbn. eexists. split; [reflexivity|]. cbn. updt. splits; auto; try lia.
    + now rewrite app_nil_r.
    + intros j H H1. repeat (destruct H1 as [H1|H1]; [discriminate|]). auto.
    + intros m. specialize (Z m). cbn in Z. rewrite Z, orb_false_r. destruct (m =? n); simpl; lia.
  - cbn [rest]. set (s1 := mkSt (exists_ s) (chan s) (upd (upd (upd (sto s) i (Obj n v false)) i (Obj n v false)) i (Obj (next s) w true)) (S (next s)) (ERead i w :: ECompare i false :: EConstruct (next s) w :: EPop i (Some w) :: EDestroy n :: EDestroy n :: log s)).
    assert (E1 : exec step s [Inc i (Some w); IsEnd i; Deref i] = Some s1).
    { cbn [exec step]. rewrite X. unfold increment, destroy. rewrite So. cbn. rewrite C. cbn. updt. cbn. rewrite X. cbn. rewrite X. cbn. updt. rewrite C. reflexivity. }
    destruct (IH s1 i (next s) w) as (s' & E2 & X2 & R2 & H2 & N2 & B2 & D2); [auto|auto|cbn; now updt|cbn; lia|]. exists s'. split; [apply exec_app; eauto|]. cbn [s1 next log reads] in *. splits; auto.
    + rewrite R2, <- app_assoc. reflexivity.
    + rewrite N2. cbn. lia.
    + intros j H. apply B2. intros H1. repeat (destruct H1 as [H1|H1]; [discriminate|]). auto.
    + intros m. rewrite D2. cbn [destroyed length].
      destruct (Nat.eqb_spec m n); destruct (Nat.eqb_spec m (next s)); destruct (Nat.leb_spec (S (next s)) m); destruct (Nat.leb_spec (next s) m); destruct (Nat.ltb_spec m (S (next s) + length vs)); destruct (Nat.ltb_spec m (next s + S (length vs))); cbn [orb andb]; lia.
Qed.
Theorem C56_loop_partial i vs : exists s, exec step init_state (loop i vs) = Some s /\ reads (log s) = vs /\ hd_error (log s) = Some (ECompare i true) /\ (forall j, ~ In (EReadBad j) (log s)) /\
  next s = length vs /\ forall n, n < length vs -> destroyed (log s) n = 2.
Proof.
  destruct vs as [|v vs].
  - cbn [loop exec step init_state exists_]. unfold increment. cbn [chan]. updt. cbn [pop_into exists_]. updt. cbn [exists_]. updt.
    eexists. split; [reflexivity|]. cbn. updt. splits; auto; try lia. intros j [H|[H|[]]]; discriminate.
  - cbn [loop]. set (s1 := mkSt (upd (fun _ => false) i true) (upd (fun _ => false) i true) (upd (upd (fun _ => Raw) i Raw) i (Obj 0 v true)) 1 [ERead i v; ECompare i false; EConstruct 0 v; EPop i (Some v)]).
    assert (E1 : exec step init_state [Begin i (Some v); IsEnd i; Deref i] = Some s1) by (cbn [exec step init_state exists_]; unfold increment; cbn [chan]; updt; cbn [pop_into exists_]; updt; cbn [exists_]; updt; cbn [exists_ chan sto next log]; updt; reflexivity).
    destruct (rest_exec vs s1 i 0 v) as (s' & E2 & X2 & R2 & H2 & N2 & B2 & D2); try (cbn; updt; auto; lia).
    exists (mkSt (upd (exists_ s') i false) (chan s') (sto s') (next s') (log s')). split; [apply exec_app; exists s1; split; auto; apply exec_app; exists s'; split; auto; cbn; now rewrite X2|]. cbn [log next]. splits; auto.
    + intros j. apply B2. cbn. intros H1. repeat (destruct H1 as [H1|H1]; [discriminate|]). auto.
    + intros n Hn. rewrite D2. cbn [s1 log destroyed next]. cbn [length] in Hn. destruct (Nat.eqb_spec n 0); destruct (Nat.leb_spec 1 n); destruct (Nat.ltb_spec n (1 + length vs)); cbn [orb andb]; lia.
Qed.
Lemma ran ls (P : st -> Prop) : match exec step init_state ls with Some s => P s | None => False end -> exists s, exec step init_state ls = Some s /\ P s.
Proof. destruct (exec _ _ ls) as [s|]; [eauto|tauto]. Qed.
(** ** Refutation 1: a loop over one element destroys it twice. *)
Theorem C56_refuted_twice : exists s, exec step init_state (loop 0 [7]) = Some s /\ constructed (log s) 0 /\ destroyed (log s) 0 = 2 /\
  rev (log s) = [EPop 0 (Some 7); EConstruct 0 7; ECompare 0 false; ERead 0 7; EDestroy 0; EDestroy 0; EPop 0 None; ECompare 0 true].
Proof. apply ran. vm_compute. splits; auto. exists 7. tauto. Qed.
(** Refutation 2: an iterator that is dropped before the end (break, exception in the loop body) never destroys its element. *)
Lemma never_again ls : forall s s' n, exec step s ls = Some s' -> (forall i v b, sto s i = Obj n v b -> exists_ s i = false) -> n < next s -> destroyed (log s') n = destroyed (log s) n.
Proof.
  induction ls as [|l ls IH]; intros s s' n E H Hn; [now injection E as <-|]. cbn [exec] in E. destruct (step s l) as [s1|] eqn:St; [|discriminate].
  assert (X : destroyed (log s1) n = destroyed (log s) n /\ (forall i v b, sto s1 i = Obj n v b -> exists_ s1 i = false) /\ n < next s1).
  { assert (D : forall s0 i, exists_ s0 i = true -> (forall i v b, sto s0 i = Obj n v b -> exists_ s0 i = false) -> destroyed (log (destroy s0 i)) n = destroyed (log s0) n /\ (forall j v b, sto (destroy s0 i) j = Obj n v b -> exists_ (destroy s0 i) j = false) /\ next (destroy s0 i) = next s0 /\ exists_ (destroy s0 i) = exists_ s0 /\ chan (destroy s0 i) = chan s0).
    { intros s0 i X H0. unfold destroy. destruct (sto s0 i) as [|m v b] eqn:So; simpl; splits; auto.
      - destruct (Nat.eqb_spec n m) as [->|]; auto. apply H0 in So. congruence.
      - intros j v0 b0. upds; [|apply H0]. intros E0. injection E0 as <- <- <-. apply H0 in So. congruence. }
    assert (Pp : forall s0 i o, (forall j v b, sto s0 j = Obj n v b -> exists_ s0 j = false) -> n < next s0 -> destroyed (log (pop_into s0 i o)) n = destroyed (log s0) n /\ (forall j v b, sto (pop_into s0 i o) j = Obj n v b -> exists_ (pop_into s0 i o) j = false) /\ n < next (pop_into s0 i o)).
    { intros s0 i [v|] H0 N0; simpl; splits; auto. intros j w b. upds; [|apply H0]. intros E0. injection E0 as E0 _ _. lia. }
    destruct l as [i o|i|i j|i j|i o|i|i|i]; simpl in St.
    - destruct (exists_ s i) eqn:X; [discriminate|]. injection St as <-. unfold increment. simpl. updt. apply (Pp (mkSt (upd (exists_ s) i true) (upd (chan s) i true) (upd (sto s) i Raw) (next s) (log s)) i o); auto. simpl. intros j v b. upds; [discriminate|]. apply H.
    - destruct (exists_ s i) eqn:X; [discriminate|]. injection St as <-. simpl. splits; auto. intros j v b. upds; [discriminate|]. apply H.
    - destruct (_ || _); [discriminate|]. injection St as <-. simpl. splits; auto. intros k v b. upds; [discriminate|]. apply H.
    - destruct (_ && _); [|discriminate]. injection St as <-. simpl. auto.
    - destruct (exists_ s i) eqn:X; [|discriminate]. injection St as <-. destruct (D s i X H) as (D1 & D2 & D3 & D4 & D5). unfold increment. destruct (chan (destroy s i) i).
      + destruct (D (destroy s i) i) as (F1 & F2 & F3 & F4 & F5); [congruence|exact D2|]. destruct (Pp (destroy (destroy s i) i) i o F2) as (G1 & G2 & G3); [lia|]. splits; auto. congruence.
      + simpl. rewrite D3. auto.
    - destruct (exists_ s i); [|discriminate]. injection St as <-. simpl. splits; auto. destruct (sto s i) as [|? ? []]; reflexivity.
    - destruct (exists_ s i); [|discriminate]. injection St as <-. simpl. auto.
    - destruct (exists_ s i); [|discriminate]. injection St as <-. simpl. splits; auto. intros j v b E0. upds; auto. apply (H j v b E0). }
  destruct X as (X1 & X2 & X3). rewrite <- X1. apply (IH s1 s' n E X2 X3).
Qed.
Theorem C56_refuted_leak : exists s, exec step init_state [Begin 0 (Some 7); IsEnd 0; Deref 0; Drop 0] = Some s /\ constructed (log s) 0 /\
  forall ls s', exec step s ls = Some s' -> destroyed (log s') 0 = 0.
Proof.
  destruct (ran [Begin 0 (Some 7); IsEnd 0; Deref 0; Drop 0] (fun s => log s = [ERead 0 7; ECompare 0 false; EConstruct 0 7; EPop 0 (Some 7)] /\ next s = 1 /\ exists_ s 0 = false /\ sto s 0 = Obj 0 7 true)) as (s & E & L & N & X & So); [vm_compute; auto|].
  exists s. split; [exact E|]. split; [exists 7; rewrite L; simpl; auto|]. intros ls s' E'. rewrite (never_again ls s s' 0 E'); [now rewrite L| |lia].
  assert (R : forall i, i <> 0 -> sto s i = Raw). { intros i Hi. revert E. clear -Hi. cbn. intros E. injection E as <-. simpl. now updt. }
  intros i v b Hs. destruct (Nat.eq_dec i 0) as [->|Ni]; auto. rewrite R in Hs by auto. discriminate.
Qed.
(** Refutation 3: a copy of an iterator refers to raw memory; advancing it destroys an object that does not exist. *)
Theorem C56_refuted_copy : exists s, exec step init_state [Begin 0 (Some 7); Copy 0 1; Deref 1; Inc 1 (Some 8)] = Some s /\
  rev (log s) = [EPop 0 (Some 7); EConstruct 0 7; EReadBad 1; EDestroyRaw 1; EDestroyRaw 1; EPop 1 (Some 8); EConstruct 1 8].
Proof. apply ran. vm_compute. auto. Qed.
Example C56_advance_ex : exists s, exec step init_state [Begin 0 (Some 7); Inc 0 (Some 8)] = Some s /\ exists_ s 0 = true /\ chan s 0 = true /\ sto s 0 = Obj 1 8 true.
Proof. apply ran. vm_compute. auto. Qed.
Example C56_loop_ex : reads (match exec step init_state (loop 3 [5; 6; 5]) with Some s => log s | None => [] end) = [5; 6; 5].
Proof. reflexivity. Qed.

Print Assumptions C56_advance_destroys_twice.
Print Assumptions C56_loop_partial.
Print Assumptions C56_refuted_twice.
Print Assumptions C56_refuted_leak.
Print Assumptions C56_refuted_copy.
