(** Facts about Autoecho.v for C141: what a state in which nothing can happen looks like, and why there is no infinite execution without other programs. *)
From Coq Require Import List Arith Bool Lia Wf_nat Relation_Operators Lexicographic_Product.
From Verif Require Import Base Autoecho AutoechoSpec AutoechoFacts.
Import ListNotations.

Lemma can_read1 l : l <> [] -> can_read 1 l = true.
Proof. destruct l; [congruence|]. intros _. reflexivity. Qed.

Section Facts.
Variable nc it : nat.
Variable msg : nat -> nat -> list nat.
Notation step := (step it msg).
Notation inv := (inv nc it msg).

Lemma stuck_cases s : (forall i k, msg i k <> []) -> 0 < nc -> inv s -> hangs it msg s -> client_lost s \/ session_left s.
Proof.
  intros MS NC I (S & EN & TE). pose proof (i_len _ _ _ _ I) as Il. pose proof (i_ph _ _ _ _ I) as Ip. pose proof (i_con _ _ _ _ I) as Ic. pose proof (i_bar _ _ _ _ I) as Ib. destruct (i_srv _ _ _ _ I) as (Is & Im & _).
  assert (S' : forall l, ~ outside l -> Autoecho.step it msg s l = None) by exact S. unfold Autoecho.step in S'. rewrite EN, TE in S'. simpl in S'. clear S. rename S' into S. destruct Ib as [(B1 & B2 & B3 & B4)|(B1 & B2)].
  - left. assert (SV : srv s = VAcc) by (destruct (srv s); auto; assert (closed s = true) by (apply Is; discriminate); congruence).
    assert (LV : live s = true) by (unfold live; rewrite SV; auto).
    destruct (notfull isw (cl s)) as (i & p & P & W); [lia|]. specialize (B1 _ _ P). specialize (Ip _ _ P). destruct p; try discriminate; simpl in Ip.
    + destruct Ip as (K & _). exfalso. destruct (Nat.eq_dec k it) as [->|].
      * specialize (S (Arrive i) (fun H => H)). simpl in S. rewrite P, Nat.eqb_refl in S. discriminate.
      * specialize (S (Connect i) (fun H => H)). simpl in S. rewrite P, B4 in S. destruct (Nat.ltb_spec k it); [discriminate|lia].
    + destruct Ip as (K & _ & q & Q & _). exfalso. specialize (S (Write i) (fun H => H)). simpl in S. rewrite P, Q, LV in S. discriminate.
    + destruct Ip as (K & _ & q & Q & _ & _ & (rest & R1 & R2)). exfalso. destruct (Ic _ _ Q) as ((C1 & C2) & _).
      destruct (down q) as [|d0 d] eqn:D.
      * destruct (sst q) eqn:SQ.
        -- specialize (S (Accept c) (fun H => H)). simpl in S. rewrite Q, SV, SQ, B4 in S. discriminate.
        -- assert (H : held q = []) by (destruct (held q); auto; assert (SRead = SWrite) by (apply C1; discriminate); discriminate).
           rewrite H, R2 in R1 by discriminate. simpl in R1. rewrite app_nil_r in R1. specialize (S (SRd c 1) (fun H => H)). simpl in S. rewrite Q, SQ, LV, can_read1 in S by (rewrite R1; apply MS). discriminate.
        -- specialize (S (SWr c) (fun H => H)). simpl in S. rewrite Q, SQ, LV in S. discriminate.
        -- specialize (S (CEof i) (fun H => H)). simpl in S. unfold is_end in S. rewrite P, Q, LV, SQ, D in S. discriminate.
      * specialize (S (Reply i 1) (fun H => H)). simpl in S. rewrite P, Q, LV, can_read1 in S by (rewrite D; discriminate). discriminate.
    + eapply nth_error_In; eauto.
  - assert (AD : forall i p, nth_error (cl s) i = Some p -> p = CDone).
    { intros i p P. specialize (B1 _ _ P). destruct p; try discriminate; auto. specialize (S (Leave i) (fun H => H)). simpl in S. rewrite P in S. discriminate. }
    assert (CL : closed s = true).
    { destruct (closed s) eqn:CL; auto. exfalso. simpl in B2. rewrite (cnt_zero ist) in B2; [lia|]. intros i p P. rewrite (AD _ _ P). auto. }
    destruct (srv s) eqn:SV.
    + specialize (S Abort (fun H => H)). simpl in S. rewrite ?SV, CL in S. discriminate.
    + specialize (S Stop (fun H => H)). simpl in S. rewrite ?SV in S. discriminate.
    + destruct (mret s) eqn:MR; [|specialize (S MainRet (fun H => H)); simpl in S; rewrite ?SV, ?MR in S; discriminate].
      destruct (forallb is_end (cs s)) eqn:FE.
      * specialize (S Finish (fun H => H)). simpl in S. rewrite ?MR, ?FE in S. simpl in S. replace (forallb is_over (cl s)) with true in S; [simpl in S; discriminate|]. symmetry. apply forallb_forall. intros p P. apply In_nth_error in P. destruct P as (i & P). rewrite (AD _ _ P). auto.
      * right. split; auto. assert (X : exists q, In q (cs s) /\ is_end q = false).
        { clear - FE. induction (cs s) as [|q l IH]; simpl in FE; [discriminate|]. destruct (is_end q) eqn:E; [|exists q; split; [left|]; auto]. destruct (IH FE) as (x & X & Y). exists x. split; [right|]; auto. }
        destruct X as (q & Q & E). exists q. split; auto. apply In_nth_error in Q. destruct Q as (c & Q). destruct (Ic _ _ Q) as (_ & C3). specialize (C3 CL). unfold is_end in E. destruct (sst q); auto; congruence.
Qed.

(** Termination: first the clients and the server, then the connections. *)
Definition rank (p : cph) : nat := match p with CConn k => 3 * (it - k) + 4 | CWrite k _ => 3 * (it - k) + 3 | CRead k _ => 3 * (it - k) + 2 | CWait => 2 | CRel _ => 1 | _ => 0 end.
Definition work (q : conn) : nat := 3 * length (up q) + match sst q with SPend => 3 | SRead => 2 | SWrite => 4 | SEnd => 0 end.
Definition sum {A} (f : A -> nat) (l : list A) : nat := list_sum (map f l).
Definition glob (s : st) : nat := match srv s with VAcc => 2 | VStop => 1 | VDone => 0 end + b2n (negb (mret s)) + b2n (negb (ended s)) + b2n (negb (term s)).
Lemma sum_put {A} (f : A -> nat) l i v x : nth_error l i = Some x -> sum f (put l i v) + f x = sum f l + f v.
Proof.
  unfold sum. revert i. induction l as [|y l IH]; destruct i; simpl; try discriminate.
  - intros H. injection H as ->. lia.
  - intros H. specialize (IH _ H). lia.
Qed.
Lemma sum_le {A} (f : A -> nat) g l : (forall x, f (g x) <= f x) -> sum f (map g l) <= sum f l.
Proof. intros H. unfold sum. induction l as [|y l IH]; simpl; auto. specialize (H y). lia. Qed.
Definition hi (s : st) : nat := sum rank (cl s) + glob s.
Definition lo (s : st) : nat := sum work (cs s).

Lemma step_less s l s' : inv s -> ~ outside l -> step s l = Some s' -> hi s' < hi s \/ (hi s' = hi s /\ lo s' < lo s).
Proof.
  intros I O H. pose proof (i_ph _ _ _ _ I) as Ip. pose proof (i_con _ _ _ _ I) as Ic. unfold Autoecho.step in H. destruct (term s || ended s) eqn:TE; [discriminate|]. apply orb_false_iff in TE. destruct TE as (TE & EN).
  unfold hi, lo. destruct l; try (elim O; exact Logic.I).
  - left. destruct (nth_error (cl s) i) as [[k| | | | | |]|] eqn:E; try discriminate. destruct (Nat.ltb_spec k it); [|discriminate]. destruct (closed s); [discriminate|]. simpl in H. injection H as <-.
    unfold glob; simpl. pose proof (sum_put rank _ _ (CWrite k (length (cs s))) _ E) as X. simpl in X. lia.
  - left. destruct (nth_error (cl s) i) as [[|k c| | | | |]|] eqn:E; try discriminate. destruct (nth_error (cs s) c) as [q|] eqn:Q; [|discriminate]. destruct (live s); [|discriminate]. injection H as <-.
    unfold glob; simpl. pose proof (sum_put rank _ _ (CRead k c) _ E) as X. simpl in X. lia.
  - left. destruct (nth_error (cl s) i) as [[| |k c| | | |]|] eqn:E; try discriminate. destruct (nth_error (cs s) c) as [q|] eqn:Q; [|discriminate]. destruct (live s && can_read n (down q)); [|discriminate]. injection H as <-.
    unfold glob; simpl. pose proof (sum_put rank _ _ (CConn (S k)) _ E) as X. destruct (Ip _ _ E) as (K & _). simpl in X. lia.
  - left. destruct (nth_error (cl s) i) as [[| |k c| | | |]|] eqn:E; try discriminate. destruct (nth_error (cs s) c) as [q|] eqn:Q; [|discriminate]. destruct (live s && is_end q && (length (down q) =? 0)); [|discriminate]. injection H as <-.
    unfold glob; simpl. pose proof (sum_put rank _ _ CGone _ E) as X. simpl in X. lia.
  - left. destruct (nth_error (cl s) i) as [[]|] eqn:E; try discriminate; (destruct (live s); [|discriminate]); injection H as <-; unfold glob; simpl; rewrite TE; simpl; lia.
  - left. destruct (nth_error (cl s) i) as [[k| | | | | |]|] eqn:E; try discriminate. destruct (Nat.eqb_spec k it) as [->|]; [|discriminate]. injection H as <-. unfold arrive. destruct (S (arrived s) =? length (cl s)); unfold glob; simpl.
    + assert (M : nth_error (map released (cl s)) i = Some (CConn it)) by (rewrite nth_error_map, E; auto). pose proof (sum_put rank _ _ (CRel true) _ M) as X. simpl in X.
      assert (Y : sum rank (map released (cl s)) <= sum rank (cl s)) by (apply sum_le; intros []; simpl; lia). lia.
    + pose proof (sum_put rank _ _ CWait _ E) as X. simpl in X. lia.
  - left. destruct (nth_error (cl s) i) as [[| | | |b| |]|] eqn:E; try discriminate. injection H as <-. pose proof (sum_put rank _ _ CDone _ E) as X. simpl in X. destruct b; unfold glob; simpl; lia.
  - right. destruct (nth_error (cs s) c) as [q|] eqn:Q; [|discriminate]. destruct (srv s) eqn:SV; try discriminate. destruct (sst q) eqn:SQ; try discriminate. destruct (closed s); [discriminate|]. injection H as <-.
    unfold glob; simpl. split; auto. match goal with |- sum work (put _ _ ?v) < _ => pose proof (sum_put work _ _ v _ Q) as X end. unfold work in X at 2 4. simpl in X. rewrite SQ in X. lia.
  - right. destruct (nth_error (cs s) c) as [q|] eqn:Q; [|discriminate]. destruct (sst q) eqn:SQ; try discriminate. destruct (live s && can_read n (up q)) eqn:CR; [|discriminate]. injection H as <-.
    apply andb_prop in CR. destruct CR as (_ & CR). unfold can_read in CR. apply andb_prop in CR. destruct CR as (CR & _). apply andb_prop in CR. destruct CR as (N1 & N2). apply Nat.leb_le in N1, N2.
    unfold glob; simpl. split; auto. match goal with |- sum work (put _ _ ?v) < _ => pose proof (sum_put work _ _ v _ Q) as X end. unfold work in X at 2 4. cbn [up sst] in X. rewrite SQ, skipn_length in X. lia.
  - right. destruct (nth_error (cs s) c) as [q|] eqn:Q; [|discriminate]. destruct (sst q) eqn:SQ; try discriminate. destruct (live s); [|discriminate]. injection H as <-.
    unfold glob; simpl. split; auto. match goal with |- sum work (put _ _ ?v) < _ => pose proof (sum_put work _ _ v _ Q) as X end. unfold work in X at 2 4. cbn [up sst] in X. rewrite SQ in X. lia.
  - right. destruct (nth_error (cs s) c) as [q|] eqn:Q; [|discriminate]. destruct (sst q) eqn:SQ; try discriminate. destruct (live s && shut q && (length (up q) =? 0)); [|discriminate]. injection H as <-.
    unfold glob; simpl. split; auto. match goal with |- sum work (put _ _ ?v) < _ => pose proof (sum_put work _ _ v _ Q) as X end. unfold work in X at 2 4. cbn [up sst length] in X. rewrite SQ in X. lia.
  - right. destruct (nth_error (cs s) c) as [q|] eqn:Q; [|discriminate].
    assert (X : sst q = SRead \/ sst q = SWrite) by (destruct (sst q); auto; discriminate).
    assert (H' : Some (add (set_cs s (put (cs s) c (mkConn (own q) [] [] (down q) (shut q) SEnd))) (EFail c)) = Some s') by (destruct X as [X|X]; rewrite X in H; destruct (live s); auto; discriminate). clear H. injection H' as <-.
    unfold glob; simpl. split; auto. match goal with |- sum work (put _ _ ?v) < _ => pose proof (sum_put work _ _ v _ Q) as Y end. unfold work in Y at 2 4. cbn [up sst length] in Y. destruct X as [X|X]; rewrite X in Y; lia.
  - left. unfold glob. destruct (srv s) eqn:SV; try discriminate. destruct (closed s); [|discriminate]. injection H as <-. simpl. lia.
  - left. unfold glob. destruct (srv s) eqn:SV; try discriminate. injection H as <-. simpl. lia.
  - left. unfold glob. destruct (srv s) eqn:SV; try discriminate. destruct (mret s); [discriminate|]. injection H as <-. simpl. lia.
  - left. unfold glob. destruct (mret s && forallb is_over (cl s) && forallb is_end (cs s)); [|discriminate]. injection H as <-. simpl. rewrite EN. simpl. lia.
Qed.

Lemma no_infinite : forall a b (f : nat -> st) (ls : nat -> label), hi (f 0) = a -> lo (f 0) = b -> inv (f 0) -> (forall n, ~ outside (ls n) /\ step (f n) (ls n) = Some (f (S n))) -> False.
Proof.
  induction a as [a IHa] using lt_wf_ind. induction b as [b IHb] using lt_wf_ind. intros f ls A B I H. destruct (H 0) as (O & E).
  pose proof (step_inv _ _ _ _ _ _ I E) as I1. pose proof (step_less _ _ _ I O E) as L.
  assert (H' : forall n, ~ outside (ls (S n)) /\ step (f (S n)) (ls (S n)) = Some (f (S (S n)))) by (intros n; apply H).
  destruct L as [L|(L1 & L2)].
  - apply (IHa (hi (f 1)) ltac:(lia) (lo (f 1)) (fun n => f (S n)) (fun n => ls (S n))); auto.
  - apply (IHb (lo (f 1)) ltac:(lia) (fun n => f (S n)) (fun n => ls (S n))); auto. congruence.
Qed.
End Facts.
