(** C120: the adaption of a nonblocking operation, examples/adapt_nonblocking.cpp. *)
From Coq Require Import List Arith NArith ZArith Bool Lia.
From Verif Require Import Base NonBlock.
Import ListNotations.
Local Close Scope Z_scope.
Local Open Scope nat_scope.

Section F.
Context (d0 : list N) (c desired : nat).
Record inv (s : st) : Prop := {
  v_data : over s <> Some OOutOfRange -> acc s ++ data (dev s) = d0;
  v_len : length (acc s) <= desired;
  v_chunk : chunk (dev s) = c;
  v_inj : injected (dev s) = 0%Z \/ In (injected (dev s)) (hist s);
  v_over : match over s with
    | None => True
    | Some (ORet d) => d = acc s /\ (d = firstn desired d0 \/ In EOF (hist s))
    | Some (OIncomplete d e) => d = acc s /\ In e (hist s) /\ e <> 0%Z /\ e <> EOF /\ e <> EWOULDBLOCK
    | Some OOutOfRange => 0 < c -> length d0 < desired /\ length d0 mod c <> 0 end;
  v_mod : over s = None -> 0 < c -> length (acc s) mod c = 0 \/ length (acc s) = desired;
  v_tries : tries (dev s) < 5 \/ over s <> None
}.
Lemma inv_init : inv (init_state d0 c).
Proof.
  split; simpl; auto; try lia. intros _ Hc. left. apply Nat.mod_0_l. lia.
Qed.
Lemma inv_step : forall s l s', inv s -> step desired s l = Some s' -> inv s'.
Proof.
  intros s l s' [A B C D E F G] H. unfold step in H. destruct (over s) as [o|] eqn:O; [discriminate|]. assert (A' : acc s ++ data (dev s) = d0) by (apply A; discriminate). destruct G as [G|G]; [|congruence]. destruct l as [|e].
  - destruct (Nat.ltb_spec (length (acc s)) desired) as [L|L].
    + unfold api_read in H. destruct (Z.eqb_spec (injected (dev s)) 0) as [I0|I0]; cbn [negb] in H.
      * destruct (Nat.ltb_spec (S (tries (dev s))) 5) as [T|T]; [cbn in H; injection H as <-; split; cbn; auto|].
        destruct (data (dev s)) as [|x r] eqn:Dd.
        -- change (EOF =? EWOULDBLOCK)%Z with false in H. change (EOF =? 0)%Z with false in H. cbv iota in H. injection H as <-. split; cbn; auto; try lia; try congruence; try (right; discriminate). split; auto. left. rewrite app_nil_r in A'. rewrite <- A', firstn_all2; auto; lia.
        -- destruct (Nat.leb_spec (Nat.min (desired - length (acc s)) (chunk (dev s))) (length (x :: r))) as [S|S].
           ++ change (0 =? EWOULDBLOCK)%Z with false in H. change (0 =? 0)%Z with true in H. cbv iota in H. injection H as <-. rewrite C in *. set (z := Nat.min (desired - length (acc s)) c) in *.
              assert (Lz : length (firstn z (x :: r)) = z) by (rewrite firstn_length; lia).
              split; cbn [dev acc yielded over hist data injected tries chunk]; auto; try lia.
              ** intros _. rewrite <- app_assoc, firstn_skipn. auto.
              ** rewrite app_length, Lz. lia.
              ** intros _ Hc. rewrite app_length, Lz. destruct (F eq_refl Hc) as [M|M]; [|lia]. destruct (Nat.le_gt_cases c (desired - length (acc s))) as [K|K]; [left|right; unfold z; lia].
                 unfold z. rewrite Nat.min_r by auto. rewrite Nat.add_mod, M, Nat.mod_same by lia. rewrite Nat.add_0_r. apply Nat.mod_0_l. lia.
           ++ injection H as <-. rewrite C in *. split; cbn [dev acc yielded over hist data injected tries chunk]; auto; try congruence; try (right; discriminate).
              intros Hc. rewrite <- A', app_length. split; [lia|]. destruct (F eq_refl Hc) as [M|M]; [|lia]. rewrite Nat.add_mod, M by lia. rewrite Nat.add_0_l, Nat.mod_mod by lia. rewrite Nat.mod_small by lia. simpl. lia.
      * destruct D as [D|D]; [congruence|]. destruct (Z.eqb_spec (injected (dev s)) EWOULDBLOCK) as [W|W]; [injection H as <-; split; cbn; auto; lia|]. destruct (Z.eqb_spec (injected (dev s)) 0); [congruence|]. injection H as <-. split; cbn; auto; try congruence; try lia.
        ** unfold finish. destruct (Z.eqb_spec (injected (dev s)) 0); [congruence|]. destruct (Z.eqb_spec (injected (dev s)) EOF) as [X|X]; cbn; auto. rewrite X in D. auto.
    + injection H as <-. split; cbn [dev acc yielded over hist data injected tries chunk]; auto; try discriminate; try (right; discriminate). unfold finish. cbn [Z.eqb orb]. split; auto. left. rewrite <- A'. assert (Le : length (acc s) = desired) by lia. rewrite <- Le at 1. rewrite firstn_app, Nat.sub_diag, firstn_all. simpl. now rewrite app_nil_r.
  - destruct (yielded s); [|discriminate]. injection H as <-. split; cbn; auto.
Qed.
Lemma inv_reach : forall s, reachable (step desired) (init_state d0 c) s -> inv s.
Proof. exact (reachable_inv (step desired) inv (init_state d0 c) inv_init inv_step). Qed.
End F.

(** The labels of an execution without errors. *)
Definition no_inject (tr : list label) : Prop := forall l, In l tr -> l = Go.

(** C120 is false: 26 bytes in chunks of 5, 30 are desired; the last chunk is shorter and std::out_of_range leaves read(). *)
Theorem C120_refuted : exists tr s, no_inject tr /\ exec (step 30) (init_state (map N.of_nat (seq 97 26)) 5) tr = Some s /\ over s = Some OOutOfRange.
Proof.
  exists (repeat Go 30). eexists. splits; [|vm_compute; reflexivity|reflexivity]. intros l H. apply repeat_spec in H. auto.
Qed.
Print Assumptions C120_refuted.

(** C120 is also false for chunks of length 0: read() does not end. *)
Theorem C120_loop_refuted : forall n, exists s, exec (step 1) (init_state [1%N] 0) (repeat Go n) = Some s /\ over s = None.
Proof.
  assert (G : forall n s, over s = None -> acc s = [] -> dev s = mkApi [1%N] 0 (tries (dev s)) 0 -> tries (dev s) < 5 -> exists s', exec (step 1) s (repeat Go n) = Some s' /\ over s' = None).
  { induction n as [|n IH]; intros s O A D T; [exists s; auto|]. simpl repeat. cbn [exec]. unfold step. rewrite O, A, D. cbn [length Nat.ltb Nat.leb Nat.sub]. unfold api_read. cbn [injected data chunk tries Z.eqb negb].
    destruct (Nat.ltb_spec (S (tries (dev s))) 5); cbn; apply IH; auto; simpl; lia. }
  intros n. apply G; auto; simpl; lia.
Qed.
Print Assumptions C120_loop_refuted.

(** C120 with errors injected at any time: no byte is lost or read twice; what read() returns, or get_partial() of the exception, and what is left in the device are the data. Without an injected EOF read() returns the desired number of bytes, or all. IncompleteRead has an injected error code. *)
Theorem C120_data_partial : forall d0 c desired s, reachable (step desired) (init_state d0 c) s ->
  (forall d, over s = Some (ORet d) -> d ++ data (dev s) = d0 /\ (d = firstn desired d0 \/ In EOF (hist s))) /\
  (forall d e, over s = Some (OIncomplete d e) -> d ++ data (dev s) = d0 /\ length d <= desired /\ In e (hist s) /\ e <> 0%Z /\ e <> EOF /\ e <> EWOULDBLOCK).
Proof.
  intros d0 c desired s R. destruct (inv_reach d0 c desired s R) as [A B _ _ E _]. split; intros d.
  - intros O. rewrite O in *. destruct E as (-> & E). split; auto. apply A. discriminate.
  - intros e O. rewrite O in *. destruct E as (-> & E). splits; try tauto. apply A. discriminate.
Qed.
Print Assumptions C120_data_partial.

(** C120: std::out_of_range leaves read() only if more bytes are desired than there are and the last chunk is shorter than the others. *)
Theorem C120_range_partial : forall d0 c desired s, 0 < c -> reachable (step desired) (init_state d0 c) s -> over s = Some OOutOfRange -> length d0 < desired /\ length d0 mod c <> 0.
Proof. intros d0 c desired s Hc R O. destruct (inv_reach d0 c desired s R) as [_ _ _ _ E _ _]. rewrite O in E. auto. Qed.
Print Assumptions C120_range_partial.

(** C120: with chunks that are not empty and without errors read() ends after a bounded number of tries, of which other fibers run in all but one per chunk. *)
Theorem C120_ends_partial : forall d0 c desired tr s, 0 < c -> no_inject tr -> exec (step desired) (init_state d0 c) tr = Some s -> length tr <= 5 * length d0 + 6 /\ (over s = None -> step desired s Go <> None).
Proof.
  intros d0 c desired tr s Hc N E. split.
  - set (mu := fun s : st => match over s with Some _ => 0 | None => 5 * length (data (dev s)) + (5 - tries (dev s)) + 1 end).
    assert (St : forall s s', inv d0 c desired s -> injected (dev s) = 0%Z -> step desired s Go = Some s' -> injected (dev s') = 0%Z /\ S (mu s') <= mu s).
    { intros x x' [A B C D Ev F G] Ij H. unfold step in H. unfold mu. destruct (over x) eqn:O; [discriminate|]. destruct G as [G|G]; [|congruence]. destruct (Nat.ltb_spec (length (acc x)) desired) as [L|L]; [|injection H as <-; cbn [over dev data tries injected]; split; auto; lia].
      unfold api_read in H. rewrite Ij in H. cbn [negb Z.eqb] in H. destruct (Nat.ltb_spec (S (tries (dev x))) 5) as [T|T]; [cbn in H; injection H as <-; cbn [over dev data tries injected]; rewrite ?Ij; split; auto; lia|].
      destruct (data (dev x)) as [|y r] eqn:Dd.
      - change (EOF =? EWOULDBLOCK)%Z with false in H. change (EOF =? 0)%Z with false in H. cbv iota in H. injection H as <-. cbn [over dev data tries injected]. split; auto. lia.
      - destruct (Nat.leb_spec (Nat.min (desired - length (acc x)) (chunk (dev x))) (length (y :: r))) as [S|S]; [|injection H as <-; cbn [over dev data tries injected]; split; auto; lia].
        change (0 =? EWOULDBLOCK)%Z with false in H. change (0 =? 0)%Z with true in H. cbv iota in H. injection H as <-. cbn [over dev data tries injected]. rewrite ?Ij. split; auto. rewrite skipn_length. rewrite C in *. simpl length in *. lia. }
    assert (G : forall tr x x', (forall l, In l tr -> l = Go) -> inv d0 c desired x -> injected (dev x) = 0%Z -> exec (step desired) x tr = Some x' -> length tr + mu x' <= mu x).
    { induction tr0 as [|l tr0 IH]; simpl; intros x x' Nt Iv Ij X; [injection X as <-; lia|]. rewrite (Nt l) in X by auto. destruct (step desired x Go) as [x1|] eqn:S1; [|discriminate]. destruct (St x x1 Iv Ij S1) as (I1 & M1).
      specialize (IH x1 x' (fun l H => Nt l (or_intror H)) (inv_step _ _ _ _ _ _ Iv S1) I1 X). lia. }
    pose proof (G tr _ s N (inv_init d0 c desired) eq_refl E) as M. cbn in M. lia.
  - intros O. unfold step. rewrite O. destruct (length (acc s) <? desired); [|discriminate]. destruct (api_read _ _); [|discriminate]. destruct (Z.eqb _ _); [discriminate|]. destruct (Z.eqb _ _); discriminate.
Qed.
Print Assumptions C120_ends_partial.

(** C120 without errors: if there are at least as many bytes as desired, or if all chunks have the same length, read() returns the desired number of bytes, or all. *)
Theorem C120_result_partial : forall d0 c desired tr s o, 0 < c -> no_inject tr -> exec (step desired) (init_state d0 c) tr = Some s -> over s = Some o -> desired <= length d0 \/ length d0 mod c = 0 -> o = ORet (firstn desired d0).
Proof.
  intros d0 c desired tr s o Hc N E O H.
  assert (Hh : hist s = []).
  { assert (G : forall tr x x', (forall l, In l tr -> l = Go) -> hist x = [] -> exec (step desired) x tr = Some x' -> hist x' = []).
    { induction tr0 as [|l tr0 IH]; simpl; intros x x' Nt Hx X; [injection X as <-; auto|]. rewrite (Nt l) in X by auto. destruct (step desired x Go) as [x1|] eqn:S1; [|discriminate]. apply (IH x1 x'); auto.
      unfold step in S1. destruct (over x); [discriminate|]. destruct (length (acc x) <? desired); [|injection S1 as <-; auto]. destruct (api_read _ _); [|injection S1 as <-; auto]. destruct (Z.eqb _ _); [injection S1 as <-; auto|]. destruct (Z.eqb _ _); injection S1 as <-; auto. }
    exact (G tr (init_state d0 c) s N eq_refl E). }
  assert (R : reachable (step desired) (init_state d0 c) s) by (exists tr; auto). destruct (C120_data_partial d0 c desired s R) as (A & B). destruct o as [d|d e|].
  - destruct (A d O) as (_ & [-> |X]); auto. rewrite Hh in X. destruct X.
  - destruct (B d e O) as (_ & _ & X & _). rewrite Hh in X. destruct X.
  - destruct (C120_range_partial d0 c desired s Hc R O). lia.
Qed.
Print Assumptions C120_result_partial.

(** 26 bytes in chunks of 5, 13 are desired; an error after the first chunk. *)
Example C120_case : (exists s, exec (step 13) (init_state (map N.of_nat (seq 97 26)) 5) (repeat Go 16) = Some s /\ over s = Some (ORet (map N.of_nat (seq 97 13)))) /\
  exists s, exec (step 13) (init_state (map N.of_nat (seq 97 26)) 5) (repeat Go 6 ++ [Inject 1%Z; Go]) = Some s /\ over s = Some (OIncomplete (map N.of_nat (seq 97 5)) 1%Z).
Proof. split; eexists; split; vm_compute; reflexivity. Qed.
