(** Facts about Autoecho.v for C141. *)
From Coq Require Import List Arith Bool Lia.
From Verif Require Import Base Autoecho AutoechoSpec.
Import ListNotations.

Definition b2n (b : bool) : nat := if b then 1 else 0.
Lemma put_length {A} (l : list A) i v : length (put l i v) = length l.
Proof. revert i. induction l; destruct i; simpl; auto. Qed.
Lemma put_same {A} (l : list A) i v x : nth_error l i = Some x -> nth_error (put l i v) i = Some v.
Proof. revert i. induction l; destruct i; simpl; try discriminate; auto. Qed.
Lemma put_other {A} (l : list A) i v j : j <> i -> nth_error (put l i v) j = nth_error l j.
Proof. revert i j. induction l; destruct i, j; simpl; auto; congruence. Qed.
Lemma put_inv {A} (l : list A) i v j x : nth_error (put l i v) j = Some x -> (j = i /\ x = v /\ i < length l) \/ (j <> i /\ nth_error l j = Some x).
Proof.
  intros H. destruct (Nat.eq_dec j i) as [->|N]; [left|right; rewrite put_other in H; auto].
  assert (L : i < length l) by (rewrite <- (put_length l i v); apply nth_error_Some; congruence).
  destruct (nth_error l i) eqn:E; [|apply nth_error_None in E; lia]. rewrite (put_same _ _ _ _ E) in H. injection H as <-. auto.
Qed.
Definition cnt {A} (f : A -> bool) (l : list A) : nat := length (filter f l).
Lemma cnt_put {A} (f : A -> bool) l i v x : nth_error l i = Some x -> cnt f (put l i v) + b2n (f x) = cnt f l + b2n (f v).
Proof.
  unfold cnt. revert i. induction l as [|y l IH]; destruct i; simpl; try discriminate.
  - intros H. injection H as ->. destruct (f x), (f v); simpl; lia.
  - intros H. specialize (IH _ H). destruct (f y); simpl; lia.
Qed.
Lemma cnt_le {A} (f : A -> bool) l : cnt f l <= length l.
Proof. unfold cnt. induction l as [|x l IH]; simpl; auto. destruct (f x); simpl; lia. Qed.
Lemma cnt_full {A} (f : A -> bool) l : cnt f l = length l -> forall i x, nth_error l i = Some x -> f x = true.
Proof.
  induction l as [|y l IH]; [destruct i; discriminate|]. pose proof (cnt_le f l) as Q. unfold cnt in *. simpl. destruct (f y) eqn:E; simpl; [|lia].
  intros H [|i] x W; simpl in W; [congruence|]. eapply IH; eauto.
Qed.
Lemma cnt_zero {A} (f : A -> bool) l : (forall i x, nth_error l i = Some x -> f x = false) -> cnt f l = 0.
Proof. unfold cnt. induction l as [|y l IH]; simpl; auto. intros H. pose proof (H 0 _ eq_refl) as E. rewrite E. apply IH. intros i. apply (H (S i)). Qed.
Lemma cnt_pos {A} (f : A -> bool) l : cnt f l <> 0 -> exists i x, nth_error l i = Some x /\ f x = true.
Proof.
  unfold cnt. induction l as [|y l IH]; simpl; [congruence|]. destruct (f y) eqn:E; [intros; exists 0, y; auto|].
  intros H. destruct (IH H) as (i & x & W & F). exists (S i), x. auto.
Qed.
Lemma notfull {A} (f : A -> bool) l : cnt f l < length l -> exists i x, nth_error l i = Some x /\ f x = false.
Proof.
  unfold cnt. induction l as [|y l IH]; simpl; [lia|]. destruct (f y) eqn:E; simpl; [|intros; exists 0, y; auto].
  intros H. destruct IH as (i & x & W & F); [lia|]. exists (S i), x. auto.
Qed.

Definition isw (p : cph) : bool := match p with CWait => true | _ => false end.
Definition ist (p : cph) : bool := match p with CRel true => true | _ => false end.
Definition isr (p : cph) : bool := match p with CRel _ | CDone => true | _ => false end.
(** A connection that is not used yet; a connection on which the client of m waits for its reply. *)
Definition blank (q : conn) : Prop := up q = [] /\ held q = [] /\ down q = [].
Definition wai (q : conn) (m : list nat) : Prop := exists rest, down q ++ held q ++ up q ++ rest = m /\ (sst q <> SEnd -> rest = []).
Definition crel (q q' : conn) : Prop := own q' = own q /\ (own q <> None -> shut q = false -> shut q' = false /\ (blank q -> blank q') /\ (forall m, wai q m -> wai q' m)).
Definition okc (q : conn) : Prop := (sst q = SWrite <-> held q <> []) /\ (sst q = SEnd -> up q = []).

Section Facts.
Variable nc it : nat.
Variable msg : nat -> nat -> list nat.
Notation step := (step it msg).

Definition got (l : list event) (i k : nat) : Prop := forall j, j < k -> exists r, In (EReply i j r) l.
Definition okp (s : st) (i : nat) (p : cph) : Prop := match p with
  | CConn k => k <= it /\ got (log s) i k
  | CWrite k c => k < it /\ got (log s) i k /\ exists q, nth_error (cs s) c = Some q /\ own q = Some (i, k) /\ shut q = false /\ blank q
  | CRead k c => k < it /\ got (log s) i k /\ exists q, nth_error (cs s) c = Some q /\ own q = Some (i, k) /\ shut q = false /\ wai q (msg i k)
  | CWait | CRel _ | CDone => got (log s) i it
  | CGone => True end.
Definition good (r : list event) (e : event) : Prop := match e with
  | EReply i k x => x <> [] /\ exists rest, x ++ rest = msg i k
  | EClose => ~ In EClose r /\ forall i k, i < nc -> k < it -> exists x, In (EReply i k x) r
  | _ => True end.
Fixpoint all_good (l : list event) : Prop := match l with [] => True | e :: r => good r e /\ all_good r end.
Definition before (s : st) : Prop := (forall i p, nth_error (cl s) i = Some p -> isr p = false) /\ arrived s = cnt isw (cl s) /\ arrived s < nc /\ closed s = false.
Definition after (s : st) : Prop := (forall i p, nth_error (cl s) i = Some p -> isr p = true) /\ cnt ist (cl s) + b2n (closed s) = 1.
Record inv (s : st) : Prop := mkInv {
  i_len : length (cl s) = nc;
  i_ph : forall i p, nth_error (cl s) i = Some p -> okp s i p;
  i_con : forall c q, nth_error (cs s) c = Some q -> okc q /\ (closed s = true -> sst q <> SPend);
  i_bar : before s \/ after s;
  i_srv : (srv s <> VAcc -> closed s = true) /\ (mret s = true -> srv s = VDone) /\ (closed s = false -> ~ In EClose (log s));
  i_log : all_good (log s) }.

Lemma okp_conn s s' i p : cl s' = cl s -> incl (log s) (log s') -> (forall c q, nth_error (cs s) c = Some q -> exists q', nth_error (cs s') c = Some q' /\ crel q q') -> okp s i p -> okp s' i p.
Proof.
  intros E L R. assert (G : forall k, got (log s) i k -> got (log s') i k) by (intros k W j J; destruct (W j J) as (r & Q); exists r; auto).
  destruct p; simpl; auto; try tauto.
  - intros (A & B). auto.
  - intros (A & B & q & Q & O & S & W). splits; auto. destruct (R _ _ Q) as (q' & Q' & O' & X). exists q'. destruct X as (S' & X1 & X2); [congruence|auto|]. splits; auto. congruence.
  - intros (A & B & q & Q & O & S & W). splits; auto. destruct (R _ _ Q) as (q' & Q' & O' & X). exists q'. destruct X as (S' & X1 & X2); [congruence|auto|]. splits; auto. congruence.
Qed.
Lemma crel_refl q : crel q q.
Proof. split; auto. Qed.

(** A step of one connection. *)
Lemma conn_inv s c q q' es : inv s -> nth_error (cs s) c = Some q -> crel q q' -> okc q' -> (closed s = true -> sst q' <> SPend) ->
  Forall (fun e => match e with EFail _ => True | _ => False end) es -> inv (mkSt (cl s) (put (cs s) c q') (arrived s) (closed s) (srv s) (mret s) (ended s) (term s) (es ++ log s)).
Proof.
  intros I Q C O P F. destruct I. assert (NE : forall x, In x (es ++ log s) -> In x (log s) \/ exists d, x = EFail d).
  { intros x H. apply in_app_or in H. destruct H as [H|H]; auto. rewrite Forall_forall in F. specialize (F _ H). destruct x; try tauto. right; eauto. }
  constructor; simpl; auto.
  - intros i p H. eapply okp_conn; [| | |eapply i_ph0; eauto]; simpl; auto; [apply incl_appr, incl_refl|].
    intros d r D. destruct (Nat.eq_dec d c) as [->|N].
    + rewrite (put_same _ _ _ _ Q). rewrite Q in D. injection D as <-. eauto.
    + rewrite put_other by auto. exists r. split; auto. apply crel_refl.
  - intros d r D. apply put_inv in D. destruct D as [(-> & -> & _)|(N & D)]; auto. eauto.
  - destruct i_srv0 as (A & B & D). splits; auto. intros W H. apply NE in H. destruct H as [H|(d & H)]; [apply D; auto|discriminate].
  - clear - F i_log0. induction es as [|e es IH]; simpl; auto. inversion F; subst. split; [destruct e; simpl; auto; tauto|]. apply IH; auto.
Qed.

(** A step of one client before the barrier. *)
Lemma client_bar s i p p' x l : (before s \/ after s) -> nth_error (cl s) i = Some p -> isr p = false -> isr p' = false -> isw p = false -> isw p' = false ->
  before (mkSt (put (cl s) i p') x (arrived s) (closed s) (srv s) (mret s) (ended s) (term s) l).
Proof.
  intros B H R R' W W'. assert (B' : before s) by (destruct B as [B|(B & _)]; auto; specialize (B _ _ H); congruence). destruct B' as (A & C & D & E).
  unfold before; splits; simpl; auto.
  - intros j y J. apply put_inv in J. destruct J as [(-> & -> & _)|(N & J)]; auto. eauto.
  - pose proof (cnt_put isw _ _ p' _ H) as Q. rewrite W, W' in Q. simpl in Q. lia.
Qed.

Lemma step_inv s l s' : inv s -> step s l = Some s' -> inv s'.
Proof.
  intros I H. unfold Autoecho.step in H. destruct (term s || ended s); [discriminate|].
  pose proof (i_len _ I) as Il. pose proof (i_ph _ I) as Ip. pose proof (i_con _ I) as Ic. pose proof (i_bar _ I) as Ib. pose proof (i_srv _ I) as Is. pose proof (i_log _ I) as Ig.
  destruct l.
  - (* Connect *) destruct (nth_error (cl s) i) as [[k| | | | | |]|] eqn:E; try discriminate. destruct (Nat.ltb_spec k it); [|discriminate]. destruct (closed s) eqn:CL; [discriminate|]. simpl in H. injection H as <-.
    pose proof (Ip _ _ E) as (K & G). constructor; simpl; auto.
    + rewrite put_length. auto.
    + intros j p J. apply put_inv in J. destruct J as [(-> & -> & _)|(N & J)].
      * simpl. splits; auto. eexists. splits; [rewrite nth_error_app2, Nat.sub_diag by lia; reflexivity| | |]; simpl; auto. unfold blank; auto.
      * apply (okp_conn (set_cl s (put (cl s) i (CWrite k (length (cs s)))))); simpl; auto; [apply incl_refl| |specialize (Ip _ _ J); destruct p; auto].
        intros c q Q. exists q. split; [|apply crel_refl]. rewrite nth_error_app1; auto. apply nth_error_Some. congruence.
    + intros c q Q. destruct (lt_dec c (length (cs s))).
      * rewrite nth_error_app1 in Q by auto. destruct (Ic _ _ Q). split; auto. congruence.
      * rewrite nth_error_app2 in Q by lia. destruct (c - length (cs s)) as [|d]; simpl in Q; [|destruct d; discriminate]. injection Q as <-. split; [|congruence].
        unfold okc. simpl. split; [split; [discriminate|congruence]|auto].
    + left. unfold add, set_cs, set_cl; simpl. apply client_bar with (CConn k); auto.
    + rewrite CL. exact Is.
  - (* Write *) destruct (nth_error (cl s) i) as [[|k c| | | | |]|] eqn:E; try discriminate. destruct (nth_error (cs s) c) as [q|] eqn:Q; [|discriminate]. destruct (live s); [|discriminate]. injection H as <-.
    pose proof (Ip _ _ E) as (K & G & q0 & Q0 & O & S & (B1 & B2 & B3)). assert (q0 = q) by congruence. subst q0. destruct (Ic _ _ Q) as ((C1 & C2) & C3). constructor; simpl; auto.
    + rewrite put_length. auto.
    + intros j p J. apply put_inv in J. destruct J as [(-> & -> & _)|(N & J)].
      * simpl. splits; auto. eexists. splits; [eapply put_same; eauto| | |]; destruct (is_end q) eqn:EE; simpl; auto.
        -- exists (msg i k). rewrite B1, B2, B3. split; auto. unfold is_end in EE. destruct (sst q); congruence.
        -- exists []. simpl. rewrite B1, B2, B3, app_nil_r. auto.
      * specialize (Ip _ _ J). destruct p; auto; simpl in *.
        -- destruct Ip as (X1 & X2 & q1 & X3 & X4 & X5 & X6). splits; auto. exists q1. splits; auto. rewrite put_other; auto. intros ->. congruence.
        -- destruct Ip as (X1 & X2 & q1 & X3 & X4 & X5 & X6). splits; auto. exists q1. splits; auto. rewrite put_other; auto. intros ->. congruence.
    + intros d r D. apply put_inv in D. destruct D as [(-> & -> & _)|(N & D)]; [|eauto]. destruct (is_end q) eqn:EE; [split; auto; split; auto|]. unfold okc. simpl. splits; auto. intros W. unfold is_end in EE. rewrite W in EE. discriminate.
    + left. unfold add, set_cs, set_cl; simpl. apply client_bar with (CWrite k c); auto.
  - (* Reply *) destruct (nth_error (cl s) i) as [[| |k c| | | |]|] eqn:E; try discriminate. destruct (nth_error (cs s) c) as [q|] eqn:Q; [|discriminate]. destruct (live s && can_read n (down q)) eqn:CR; [|discriminate]. injection H as <-.
    apply andb_prop in CR. destruct CR as (_ & CR). unfold can_read in CR. apply andb_prop in CR. destruct CR as (CR & _). apply andb_prop in CR. destruct CR as (N1 & N2). apply Nat.leb_le in N1, N2.
    pose proof (Ip _ _ E) as (K & G & q0 & Q0 & O & S & (rest & W1 & W2)). assert (q0 = q) by congruence. subst q0. destruct (Ic _ _ Q) as ((C1 & C2) & C3).
    assert (NEv : forall x, In x (EReply i k (firstn n (down q)) :: log s) -> x = EReply i k (firstn n (down q)) \/ In x (log s)) by (intros x [X|X]; auto).
    constructor; simpl; auto.
    + rewrite put_length. auto.
    + intros j p J. apply put_inv in J. destruct J as [(-> & -> & _)|(N & J)].
      * simpl. split; [lia|]. intros j J. destruct (Nat.eq_dec j k) as [->|]; [eexists; left; reflexivity|]. destruct (G j) as (r & R); [lia|]. exists r. right. exact R.
      * specialize (Ip _ _ J). assert (GG : forall m, got (log s) j m -> got (EReply i k (firstn n (down q)) :: log s) j m) by (intros m W x X; destruct (W x X) as (r & R); exists r; right; exact R).
        destruct p; auto; simpl in *; auto.
        -- destruct Ip; auto.
        -- destruct Ip as (X1 & X2 & q1 & X3 & X4 & X5 & X6). splits; auto. exists q1. splits; auto. rewrite put_other; auto. intros ->. congruence.
        -- destruct Ip as (X1 & X2 & q1 & X3 & X4 & X5 & X6). splits; auto. exists q1. splits; auto. rewrite put_other; auto. intros ->. congruence.
    + intros d r D. apply put_inv in D. destruct D as [(-> & -> & _)|(N & D)]; [|eauto]. simpl. split; auto. split; auto.
    + left. unfold add, set_cs, set_cl; simpl. apply client_bar with (CRead k c); auto.
    + destruct Is as (A & B & D). splits; auto. intros W [X|X]; [discriminate|]. apply D; auto.
    + split; auto. split.
      * destruct (down q); simpl in N2; [lia|]. destruct n; [lia|]. discriminate.
      * exists (skipn n (down q) ++ held q ++ up q ++ rest). rewrite app_assoc, firstn_skipn. auto.
  - (* CEof *) destruct (nth_error (cl s) i) as [[| |k c| | | |]|] eqn:E; try discriminate. destruct (nth_error (cs s) c) as [q|] eqn:Q; [|discriminate]. destruct (live s && is_end q && (length (down q) =? 0)); [|discriminate]. injection H as <-.
    constructor; simpl; auto.
    + rewrite put_length. auto.
    + intros j p J. apply put_inv in J. destruct J as [(-> & -> & _)|(N & J)]; [exact Logic.I|]. specialize (Ip _ _ J). destruct p; auto.
    + left. unfold add, set_cs, set_cl; simpl. apply client_bar with (CRead k c); auto.
  - (* CErr *) destruct (nth_error (cl s) i) as [[]|] eqn:E; try discriminate; (destruct (live s); [|discriminate]); injection H as <-; (constructor; simpl; auto;
      [intros j p J; eapply okp_conn; [| | |eapply Ip; exact J]; simpl; auto; [apply incl_tl, incl_refl|intros d r D; exists r; split; auto; apply crel_refl]
      |destruct Is as (A & B & D); splits; auto; intros W [X|X]; [discriminate|apply D; auto]]).
  - (* Arrive *) destruct (nth_error (cl s) i) as [[k| | | | | |]|] eqn:E; try discriminate. destruct (Nat.eqb_spec k it) as [->|]; [|discriminate]. injection H as <-. pose proof (Ip _ _ E) as (_ & G).
    assert (B : before s) by (destruct Ib as [B|(B & _)]; auto; specialize (B _ _ E); discriminate). destruct B as (B1 & B2 & B3 & B4).
    unfold arrive. destruct (Nat.eqb_spec (S (arrived s)) (length (cl s))) as [F|F].
    + assert (AW : forall j p, nth_error (cl s) j = Some p -> j <> i -> p = CWait).
      { intros j p J N. assert (C : cnt isw (put (cl s) i CWait) = length (put (cl s) i CWait)).
        { rewrite put_length. pose proof (cnt_put isw _ _ CWait _ E) as X. simpl in X. lia. }
        pose proof (cnt_full _ _ C j p) as X. rewrite put_other in X by auto. specialize (X J). destruct p; simpl in X; congruence. }
      assert (EL : forall j p, nth_error (put (map released (cl s)) i (CRel true)) j = Some p -> (j = i /\ p = CRel true) \/ (j <> i /\ p = CRel false /\ nth_error (cl s) j = Some CWait)).
      { intros j p J. apply put_inv in J. destruct J as [(-> & -> & _)|(N & J)]; auto. rewrite nth_error_map in J. destruct (nth_error (cl s) j) as [y|] eqn:Y; [|discriminate]. simpl in J. rewrite (AW _ _ Y N) in *. injection J as <-. auto. }
      constructor; simpl; auto.
      * rewrite put_length, map_length. auto.
      * intros j p J. destruct (EL _ _ J) as [(-> & ->)|(N & -> & Y)]; simpl; auto. apply (Ip _ _ Y).
      * right. split; simpl.
        -- intros j p J. destruct (EL _ _ J) as [(-> & ->)|(N & -> & Y)]; auto.
        -- rewrite B4. simpl. assert (M : nth_error (map released (cl s)) i = Some (CConn it)) by (rewrite nth_error_map, E; auto).
           pose proof (cnt_put ist _ _ (CRel true) _ M) as X. simpl in X. rewrite (cnt_zero ist (map released (cl s))) in X; [lia|].
           intros j p J. rewrite nth_error_map in J. destruct (nth_error (cl s) j) as [y|] eqn:Y; [|discriminate]. simpl in J. specialize (B1 _ _ Y). destruct y; simpl in *; try congruence; injection J as <-; auto.
    + constructor; simpl; auto.
      * rewrite put_length. auto.
      * intros j p J. apply put_inv in J. destruct J as [(-> & -> & _)|(N & J)]; [exact G|]. specialize (Ip _ _ J). destruct p; auto.
      * left. unfold before; splits; simpl; auto.
        -- intros j p J. apply put_inv in J. destruct J as [(-> & -> & _)|(N & J)]; auto. eauto.
        -- pose proof (cnt_put isw _ _ CWait _ E) as X. simpl in X. lia.
        -- pose proof (cnt_le isw (cl s)). lia.
  - (* Leave *) destruct (nth_error (cl s) i) as [[| | | |b| |]|] eqn:E; try discriminate. injection H as <-. pose proof (Ip _ _ E) as G.
    assert (B : after s) by (destruct Ib as [(B & _)|B]; auto; specialize (B _ _ E); discriminate). destruct B as (B1 & B2).
    assert (P0 : forall j p, nth_error (put (cl s) i CDone) j = Some p -> isr p = true /\ okp (set_cl s (put (cl s) i CDone)) j p).
    { intros j p J. apply put_inv in J. destruct J as [(-> & -> & _)|(N & J)]; auto. split; eauto. }
    pose proof (cnt_put ist _ _ CDone _ E) as X. destruct b; simpl in X.
    + assert (CL : closed s = false) by (destruct (closed s); simpl in B2; auto; lia). rewrite CL in B2. simpl in B2.
      constructor; simpl; auto.
      * rewrite put_length. auto.
      * intros j p J. destruct (P0 _ _ J) as (_ & W). eapply okp_conn; [| | |exact W]; simpl; auto; [apply incl_tl, incl_refl|].
        intros d q D. exists (reset q). rewrite nth_error_map, D. split; auto. unfold crel, reset. destruct (sst q) eqn:SQ; auto. simpl. split; auto. intros _ W0. splits; auto.
        -- unfold blank. simpl. tauto.
        -- intros m (rest & R1 & R2). exists (held q ++ up q ++ rest). simpl. split; auto. congruence.
      * intros d q D. rewrite nth_error_map in D. destruct (nth_error (cs s) d) as [y|] eqn:Y; [|discriminate]. simpl in D. injection D as <-. destruct (Ic _ _ Y) as ((W1 & W2) & _). unfold reset, okc. destruct (sst y) eqn:SY; simpl; rewrite ?SY; splits; auto; try congruence; try tauto; split; congruence.
      * right. split; simpl; [intros j p J; destruct (P0 _ _ J); auto|]. lia.
      * destruct Is as (A & B & D). splits; auto. congruence.
      * splits; auto. apply Is. auto. intros j k J K. assert (J' : j < length (cl s)) by lia. apply nth_error_Some in J'. destruct (nth_error (cl s) j) as [p|] eqn:Y; [|congruence]. specialize (Ip _ _ Y). specialize (B1 _ _ Y). destruct p; try discriminate; apply Ip; auto.
    + constructor; simpl; auto.
      * rewrite put_length. auto.
      * intros j p J. destruct (P0 _ _ J) as (_ & W). exact W.
      * right. split; simpl; [intros j p J; destruct (P0 _ _ J); auto|]. lia.
  - (* Accept *) destruct (nth_error (cs s) c) as [q|] eqn:Q; [|discriminate]. destruct (srv s); try discriminate. destruct (sst q) eqn:SQ; try discriminate. destruct (closed s) eqn:CL; [discriminate|]. injection H as <-.
    destruct (Ic _ _ Q) as ((C1 & C2) & C3). apply (conn_inv s c q _ []); auto; simpl; try discriminate.
    + split; auto. simpl. intros _ S. splits; auto. intros m (rest & R1 & R2). exists rest. simpl. split; auto. intros _. apply R2. congruence.
    + split; simpl; [|discriminate]. split; [discriminate|]. intros W. apply C1 in W. congruence.
  - (* SRd *) destruct (nth_error (cs s) c) as [q|] eqn:Q; [|discriminate]. destruct (sst q) eqn:SQ; try discriminate. destruct (live s && can_read n (up q)) eqn:CR; [|discriminate]. injection H as <-.
    apply andb_prop in CR. destruct CR as (_ & CR). unfold can_read in CR. apply andb_prop in CR. destruct CR as (CR & _). apply andb_prop in CR. destruct CR as (N1 & N2). apply Nat.leb_le in N1, N2.
    destruct (Ic _ _ Q) as ((C1 & C2) & C3). assert (HN : held q = []) by (destruct (held q); auto; assert (sst q = SWrite) by (apply C1; discriminate); congruence).
    apply (conn_inv s c q _ []); auto; simpl; try discriminate.
    + split; auto. simpl. intros _ S. splits; auto.
      * intros (X1 & X2 & X3). rewrite X1 in N2. simpl in N2. lia.
      * intros m (rest & R1 & R2). exists rest. simpl. split; [|intros _; apply R2; congruence]. rewrite HN in R1. simpl in R1. rewrite <- R1. rewrite (app_assoc (firstn n (up q))), firstn_skipn. reflexivity.
    + split; simpl; [|discriminate]. split; auto. intros _ W. destruct (up q); simpl in N2; [lia|]. destruct n; [lia|]. discriminate.
  - (* SWr *) destruct (nth_error (cs s) c) as [q|] eqn:Q; [|discriminate]. destruct (sst q) eqn:SQ; try discriminate. destruct (live s); [|discriminate]. injection H as <-.
    destruct (Ic _ _ Q) as ((C1 & C2) & C3). apply (conn_inv s c q _ []); auto; simpl; try discriminate.
    + split; auto. simpl. intros _ S. splits; auto.
      * intros (X1 & X2 & X3). rewrite X2 in C1. assert (F : @nil nat <> []) by (apply C1; auto). congruence.
      * intros m (rest & R1 & R2). exists rest. simpl. split; [|intros _; apply R2; congruence]. rewrite <- app_assoc. auto.
    + split; simpl; [|discriminate]. split; [discriminate|congruence].
  - (* SEof *) destruct (nth_error (cs s) c) as [q|] eqn:Q; [|discriminate]. destruct (sst q) eqn:SQ; try discriminate. destruct (live s && shut q && (length (up q) =? 0)) eqn:CR; [|discriminate]. injection H as <-.
    apply andb_prop in CR. destruct CR as (CR & _). apply andb_prop in CR. destruct CR as (_ & SH).
    apply (conn_inv s c q _ []); auto; simpl; try discriminate.
    + split; auto. simpl. intros; congruence.
    + split; simpl; auto. split; [discriminate|congruence].
  - (* SErr *) destruct (nth_error (cs s) c) as [q|] eqn:Q; [|discriminate].
    assert (X : sst q = SRead \/ sst q = SWrite) by (destruct (sst q); auto; discriminate).
    assert (H' : Some (add (set_cs s (put (cs s) c (mkConn (own q) [] [] (down q) (shut q) SEnd))) (EFail c)) = Some s') by (destruct X as [X|X]; rewrite X in H; destruct (live s); auto; discriminate). clear H. injection H' as <-.
    apply (conn_inv s c q _ [EFail c]); auto; simpl; try discriminate.
    + split; auto. simpl. intros _ S. splits; auto.
      * unfold blank. simpl. tauto.
      * intros m (rest & R1 & R2). exists (held q ++ up q ++ rest). simpl. split; auto. congruence.
    + split; simpl; auto. split; [discriminate|congruence].
  - (* Abort *) destruct (srv s) eqn:SV; try discriminate. assert (CL : closed s = true) by (destruct (closed s); congruence). rewrite CL in H. injection H as <-.
    constructor; simpl; auto. destruct Is as (A & B & D). splits; auto; intros W; specialize (B W); congruence.
  - (* Stop *) destruct (srv s) eqn:SV; try discriminate. injection H as <-.
    constructor; simpl; auto. destruct Is as (A & B & D). splits; auto. intros _. apply A. congruence.
  - (* MainRet *) destruct (srv s) eqn:SV; try discriminate. destruct (mret s); try discriminate. injection H as <-.
    constructor; simpl; auto. destruct Is as (A & B & D). splits; auto.
  - (* Finish *) destruct (mret s && forallb is_over (cl s) && forallb is_end (cs s)); [|discriminate]. injection H as <-. constructor; simpl; auto.
  - (* ExtConn *) assert (CL : closed s = false) by (destruct (closed s); congruence). rewrite CL in H. injection H as <-. constructor; simpl; auto.
    + intros j p J. eapply okp_conn; [| | |eapply Ip; exact J]; simpl; auto; [apply incl_refl|].
      intros c q Q. exists q. split; [|apply crel_refl]. rewrite nth_error_app1; auto. apply nth_error_Some. congruence.
    + intros c q Q. destruct (lt_dec c (length (cs s))).
      * rewrite nth_error_app1 in Q by auto. destruct (Ic _ _ Q). split; auto.
      * rewrite nth_error_app2 in Q by lia. destruct (c - length (cs s)) as [|d]; simpl in Q; [|destruct d; discriminate]. injection Q as <-. split; [|congruence].
        unfold okc. simpl. split; [split; [discriminate|congruence]|auto].
  - (* ExtSend *) destruct (nth_error (cs s) c) as [q|] eqn:Q; [|discriminate]. destruct (own q) eqn:O; [discriminate|]. destruct (shut q) eqn:SH; [discriminate|]. injection H as <-. destruct (Ic _ _ Q) as ((C1 & C2) & C3).
    apply (conn_inv s c q _ []); auto.
    + unfold crel. destruct (is_end q); simpl; split; auto; congruence.
    + destruct (is_end q) eqn:EE; [split; auto|]. split; simpl; auto. intros W. unfold is_end in EE. rewrite W in EE. discriminate.
    + destruct (is_end q); auto.
  - (* ExtClose *) destruct (nth_error (cs s) c) as [q|] eqn:Q; [|discriminate]. destruct (own q) eqn:O; [discriminate|]. injection H as <-. destruct (Ic _ _ Q) as ((C1 & C2) & C3).
    apply (conn_inv s c q _ []); auto.
    + unfold crel. simpl. split; auto; congruence.
    + split; auto.
Qed.

Lemma reach_inv s : 0 < nc -> reachable step (init_state nc) s -> inv s.
Proof.
  intros N. apply reachable_inv; [|intros; eapply step_inv; eauto].
  assert (R : forall i p, nth_error (repeat (CConn 0) nc) i = Some p -> p = CConn 0) by (intros i p H; apply nth_error_In in H; eapply repeat_spec; eauto).
  constructor; simpl; auto.
  - apply repeat_length.
  - intros i p H. rewrite (R _ _ H). simpl. split; [lia|]. intros j J. lia.
  - intros c q H. destruct c; discriminate.
  - left. unfold before; splits; simpl; auto.
    + intros i p H. rewrite (R _ _ H). auto.
    + symmetry. apply cnt_zero. intros i p H. rewrite (R _ _ H). auto.
  - splits; auto; try congruence.
Qed.
End Facts.
