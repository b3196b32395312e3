(** Lemmas for FssReProps. *)
From Coq Require Import List Arith Bool Lia ZArith.
From Verif Require Import Base FssRe FssReSpec.
Import ListNotations.

(** ** The map *)
Definition wf (s : st) : Prop :=
  NoDup (map n_key (nodes s)) /\ NoDup (map n_id (nodes s)) /\ forall x, In x (nodes s) -> n_id x < next_id s.
Definition cur (s : st) (k : nat) : option nat := get_fss_data s k.

Lemma find_some k m x : find k m = Some x -> In x m /\ n_key x = k.
Proof. intros H. apply List.find_some in H. rewrite Nat.eqb_eq in H. auto. Qed.
Lemma find_none k m : find k m = None -> forall x, In x m -> n_key x <> k.
Proof. intros H x Hi E. pose proof (List.find_none _ _ H x Hi) as C. simpl in C. rewrite Nat.eqb_neq in C. auto. Qed.
Lemma find_in k m x : NoDup (map n_key m) -> In x m -> n_key x = k -> find k m = Some x.
Proof.
  unfold find. induction m as [|y m IH]; simpl; intros N Hi E; [tauto|]. inversion N as [|? ? Hn N']; subst.
  destruct Hi as [->|Hi]; [now rewrite Nat.eqb_refl|].
  destruct (Nat.eqb_spec (n_key y) (n_key x)) as [E|_]; [|auto]. exfalso. apply Hn. rewrite E. now apply in_map.
Qed.
Lemma alive_true i m : alive i m = true <-> exists x, In x m /\ n_id x = i.
Proof. unfold alive. rewrite existsb_exists. split; intros (x & H & E); exists x; rewrite ?Nat.eqb_eq in *; auto. Qed.
Lemma NoDup_inj {A} (f : A -> nat) m x y : NoDup (map f m) -> In x m -> In y m -> f x = f y -> x = y.
Proof.
  induction m as [|z m IH]; simpl; intros N Hx Hy E; [tauto|]. inversion N as [|? ? Hn N']; subst.
  destruct Hx as [->|Hx], Hy as [->|Hy]; auto.
  - exfalso. apply Hn. rewrite E. now apply in_map.
  - exfalso. apply Hn. rewrite <- E. now apply in_map.
Qed.
Lemma assign_keys i v m : map n_key (assign i v m) = map n_key m.
Proof. unfold assign. rewrite map_map. apply map_ext. intros x. now destruct (n_id x =? i). Qed.
Lemma assign_ids i v m : map n_id (assign i v m) = map n_id m.
Proof. unfold assign. rewrite map_map. apply map_ext. intros x. now destruct (n_id x =? i). Qed.
Lemma in_assign i v m x : In x (assign i v m) -> exists y, In y m /\ n_id y = n_id x /\ n_key y = n_key x /\ (n_id x <> i -> x = y).
Proof.
  unfold assign. rewrite in_map_iff. intros (y & E & H). exists y. destruct (Nat.eqb_spec (n_id y) i); subst x; simpl; splits; auto; congruence.
Qed.
Lemma find_assign k i v m x : NoDup (map n_id m) -> NoDup (map n_key m) -> In x m -> n_id x = i ->
  find k (assign i v m) = if k =? n_key x then Some (mkNode i k v) else find k m.
Proof.
  intros Ni Nk Hx Hi. assert (Nk' : NoDup (map n_key (assign i v m))) by now rewrite assign_keys.
  destruct (Nat.eqb_spec k (n_key x)) as [->|Hk].
  - apply find_in; auto. unfold assign. apply in_map_iff. exists x. rewrite Hi, Nat.eqb_refl. auto.
  - destruct (find k m) as [y|] eqn:F.
    + destruct (find_some _ _ _ F) as [Hy Ey]. apply find_in; auto. unfold assign. apply in_map_iff. exists y. split; auto.
      destruct (Nat.eqb_spec (n_id y) i) as [E|]; auto. exfalso. apply Hk. rewrite <- Ey. f_equal. apply (NoDup_inj n_id m); congruence.
    + destruct (find k (assign i v m)) as [z|] eqn:G; auto. exfalso. destruct (find_some _ _ _ G) as [Hz Ez].
      destruct (in_assign _ _ _ _ Hz) as (y & Hy & _ & E & _). apply (find_none _ _ F y Hy). congruence.
Qed.
Lemma NoDup_filter_map {A} (f : A -> nat) p m : NoDup (map f m) -> NoDup (map f (filter p m)).
Proof.
  induction m as [|x m IH]; simpl; intros N; [constructor|]. inversion N as [|? ? Hn N']; subst. destruct (p x); simpl; auto.
  constructor; auto. intros C. apply Hn. apply in_map_iff in C. destruct C as (y & E & Hy). apply filter_In in Hy. rewrite <- E. apply in_map. tauto.
Qed.
Lemma find_erase k i m x : NoDup (map n_id m) -> NoDup (map n_key m) -> In x m -> n_id x = i ->
  find k (erase i m) = if k =? n_key x then None else find k m.
Proof.
  intros Ni Nk Hx Hi. assert (Nk' : NoDup (map n_key (erase i m))) by now apply NoDup_filter_map.
  assert (IE : forall y, In y (erase i m) <-> In y m /\ n_id y <> i).
  { intros y. unfold erase. rewrite filter_In, negb_true_iff, Nat.eqb_neq. tauto. }
  destruct (Nat.eqb_spec k (n_key x)) as [->|Hk].
  - destruct (find (n_key x) (erase i m)) as [y|] eqn:F; auto. exfalso. destruct (find_some _ _ _ F) as [Hy Ey]. apply IE in Hy. destruct Hy as [Hy Hn].
    apply Hn. rewrite <- Hi. f_equal. apply (NoDup_inj n_key m); auto.
  - destruct (find k m) as [y|] eqn:F.
    + destruct (find_some _ _ _ F) as [Hy Ey]. apply find_in; auto. apply IE. split; auto. intros E. apply Hk. rewrite <- Ey. f_equal. apply (NoDup_inj n_id m); congruence.
    + destruct (find k (erase i m)) as [z|] eqn:G; auto. exfalso. destruct (find_some _ _ _ G) as [Hz Ez]. apply IE in Hz. apply (find_none _ _ F z); tauto.
Qed.

Lemma least_some p m x : least p m = Some x -> In x m /\ p (n_key x) = true /\ forall y, In y m -> p (n_key y) = true -> n_key x <= n_key y.
Proof.
  revert x. induction m as [|z m IH]; simpl; intros x H; [discriminate|]. destruct (least p m) as [y|] eqn:L.
  - destruct (IH y eq_refl) as (Hi & Hp & Hm). destruct (p (n_key z)) eqn:Pz; simpl in H.
    + destruct (Nat.ltb_spec (n_key z) (n_key y)); injection H as <-; splits; auto; intros w [<-|Hw] Pw; auto. specialize (Hm w Hw Pw). lia.
    + injection H as <-. splits; auto. intros w [<-|Hw] Pw; auto. congruence.
  - destruct (p (n_key z)) eqn:Pz; [|discriminate]. injection H as <-. splits; auto. intros w [<-|Hw] Pw; auto.
    clear -L Hw Pw. exfalso. revert L w Hw Pw. induction m as [|a m IH]; simpl; [tauto|]. destruct (least p m) as [b|]; [destruct (p (n_key a) && _); discriminate|].
    destruct (p (n_key a)) eqn:Pa; [discriminate|]. intros _ w [<-|Hw] Pw; [congruence|]. eauto.
Qed.
Lemma least_none p m : least p m = None -> forall y, In y m -> p (n_key y) = false.
Proof.
  induction m as [|a m IH]; simpl; [tauto|]. destruct (least p m) as [b|]; [destruct (p (n_key a) && _); discriminate|].
  destruct (p (n_key a)) eqn:Pa; [discriminate|]. intros _ w [<-|Hw]; auto.
Qed.

(** ** Accounting *)
Definition d (s : st) (k o : nat) : Z :=
  (Z.of_nat (stores (log s) k o) - Z.of_nat (cleaned (log s) k o) - Z.of_nat (releases (log s) k o) - Z.of_nat (is (cur s k) o))%Z.
Definition keys_below (K : nat) (s : st) : Prop := forall x, In x (nodes s) -> n_key x < K.
(** The elements up to k are the same nodes with the same values. *)
Definition keep (k : nat) (s s' : st) : Prop := forall x, n_key x <= k -> (In x (nodes s) <-> In x (nodes s')).
Lemma keep_cur k s s' j : wf s -> wf s' -> keep k s s' -> j <= k -> cur s' j = cur s j.
Proof.
  intros (Nk & _) (Nk' & _) H Hj. unfold cur, get_fss_data. destruct (find j (nodes s)) as [x|] eqn:F.
  - destruct (find_some _ _ _ F) as [Hi E]. rewrite (find_in j (nodes s') x); auto. apply H; auto. lia.
  - destruct (find j (nodes s')) as [y|] eqn:G; auto. exfalso. destruct (find_some _ _ _ G) as [Hi E]. apply (find_none _ _ F y); auto. apply H; auto. lia.
Qed.
Lemma keep_refl k s : keep k s s. Proof. intros x _. tauto. Qed.
Lemma keep_trans k s1 s2 s3 : keep k s1 s2 -> keep k s2 s3 -> keep k s1 s3.
Proof. intros A B x H. rewrite (A x H). auto. Qed.
Lemma keep_mono k k' s s' : k' <= k -> keep k s s' -> keep k' s s'.
Proof. intros L H x Hx. apply H. lia. Qed.
Lemma keep_nodes k s s' : nodes s' = nodes s -> keep k s s'.
Proof. intros E x _. now rewrite E. Qed.

Section Up.
Variable body : body_t.
Hypothesis UP : upwards body.
Variable K : nat.
Hypothesis BK : forall k v, below K (body k v).

Record pre (lo : nat -> Prop) (s : st) : Prop := {
  p_wf : wf s;
  p_k : keys_below K s;
  p_d : forall j o, lo j -> d s j o = 0%Z;
  p_l : looks_up body -> live (log s)
}.

(** What a call of the cleanup function of k achieves, given enough fuel. *)
Definition cl_ok (cl : nat -> option nat -> st -> res) (lo : nat) : Prop :=
  forall k vp s, lo <= k -> k < K -> pre (lt k) s ->
    exists s', cl k vp s = Done s' /\ pre (lt k) s' /\ keep k s s' /\
      (forall j o, j <= k -> d s' j o = (d s j o - (if Nat.eqb j k then Z.of_nat (is vp o) else 0))%Z).

Lemma same_eq a b : same a b = true <-> a = b.
Proof. destruct a, b; simpl; rewrite ?Nat.eqb_eq; split; congruence. Qed.

Lemma d_note s k o e : d (note e s) k o = (d s k o + match e with
    | EReset k' c t => if Nat.eqb k k' then Z.of_nat (is t o - is c o) else 0
    | ERelease k' r => if Nat.eqb k k' then - Z.of_nat (is r o) else 0
    | ECleanup k' v => if Nat.eqb k k' then - Z.of_nat (is v o) else 0
    | _ => 0 end)%Z.
Proof. unfold d, cur, get_fss_data. destruct e; simpl; try destruct (k =? k0); lia. Qed.

(** set_fss_data: what is stored changes to data. *)
Lemma set_ok cl k data ce s (lo : nat -> Prop) : pre lo s -> cl_ok cl k -> k < K -> (forall j, k < j -> lo j) ->
  exists s', set_fss_data cl k data ce s = Done s' /\ wf s' /\ keys_below K s' /\ (looks_up body -> live (log s')) /\
    (forall k', k' < k -> keep k' s s') /\
    (forall j o, d s' j o = (d s j o + (if Nat.eqb j k then (if ce then 0 else Z.of_nat (is (cur s k) o)) - Z.of_nat (is data o) else 0))%Z).
Proof.
  intros [W KB D L] CL Hk Hlo. unfold set_fss_data. destruct (find k (nodes s)) as [i|] eqn:F.
  - destruct (find_some _ _ _ F) as [Hi Ei].
    assert (CU : cur s k = n_vp i) by (unfold cur, get_fss_data; now rewrite F).
    assert (S1 : exists s1, (if ce then cl k (n_vp i) s else Done s) = Done s1 /\ wf s1 /\ keys_below K s1 /\ (looks_up body -> live (log s1)) /\ keep k s s1 /\
        (forall j o, d s1 j o = (d s j o - (if ce then (if Nat.eqb j k then Z.of_nat (is (n_vp i) o) else 0) else 0))%Z)).
    { destruct ce.
      - destruct (CL k (n_vp i) s (le_n k) Hk) as (s1 & E & [W1 K1 D1 L1] & Kp & Dk); [split; auto|].
        exists s1. splits; auto. intros j o. destruct (le_lt_dec j k) as [Hj|Hj]; [rewrite Dk; auto|].
        rewrite D1, D; auto. destruct (Nat.eqb_spec j k); [lia|]. reflexivity.
      - exists s. splits; auto using keep_refl. intros; lia. }
    destruct S1 as (s1 & -> & W1 & K1 & L1 & Kp & D1). simpl.
    assert (Hi1 : In i (nodes s1)) by (apply Kp; auto; lia).
    assert (A : alive (n_id i) (nodes s1) = true) by (apply alive_true; eauto). rewrite A.
    pose proof W1 as (Nk & Ni & Hid).
    assert (CU1 : cur s1 k = n_vp i). { rewrite <- CU. apply (keep_cur k); auto. }
    set (m' := match data with Some _ => assign (n_id i) data (nodes s1) | None => erase (n_id i) (nodes s1) end).
    assert (FM : forall j, find j m' = if Nat.eqb j k then (match data with Some _ => Some (mkNode (n_id i) j data) | None => None end) else find j (nodes s1)).
    { intros j. rewrite <- Ei. unfold m'. destruct data; [apply find_assign|apply find_erase]; auto. }
    assert (CM : forall j, cur (with_nodes m' s1) j = if Nat.eqb j k then data else cur s1 j).
    { intros j. unfold cur, get_fss_data. simpl. rewrite FM. destruct (j =? k); auto. now destruct data. }
    exists (with_nodes m' s1). splits; auto.
    + unfold wf. simpl. unfold m'. destruct data; splits; try rewrite assign_keys; try rewrite assign_ids; auto; try now apply NoDup_filter_map.
      * intros x Hx. apply in_assign in Hx. destruct Hx as (y & Hy & <- & _). auto.
      * intros x Hx. apply filter_In in Hx. apply Hid. tauto.
    + intros x. simpl. unfold m'. destruct data; intros Hx.
      * apply in_assign in Hx. destruct Hx as (y & Hy & _ & <- & _). auto.
      * apply filter_In in Hx. apply K1. tauto.
    + intros k' Hk'. apply keep_trans with s1; [apply keep_mono with k; auto; lia|]. intros x Hx. simpl.
      assert (Nx : In x (nodes s1) -> n_id x <> n_id i) by (intros Hx1 E; assert (x = i) by (apply (NoDup_inj n_id (nodes s1)); auto); subst; lia).
      unfold m'. destruct data; [|unfold erase; rewrite filter_In, negb_true_iff, Nat.eqb_neq; tauto].
      split; intros Hx1.
      * unfold assign. apply in_map_iff. exists x. destruct (Nat.eqb_spec (n_id x) (n_id i)); auto. exfalso. now apply Nx.
      * apply in_assign in Hx1. destruct Hx1 as (y & Hy & E1 & E2 & E3). destruct (Nat.eq_dec (n_id x) (n_id i)) as [E|E]; [|now rewrite (E3 E)].
        assert (y = i) by (apply (NoDup_inj n_id (nodes s1)); auto; congruence). subst. lia.
    + intros j o. transitivity (d s1 j o + (if Nat.eqb j k then Z.of_nat (is (n_vp i) o) - Z.of_nat (is data o) else 0))%Z.
      * unfold d. rewrite CM. simpl. destruct (Nat.eqb_spec j k) as [->|]; [rewrite CU1|]; lia.
      * rewrite D1, CU. destruct ce, (Nat.eqb_spec j k); lia.
  - pose proof W as (Nk & Ni & Hid). pose proof (find_none _ _ F) as FN.
    exists (mkSt (mkNode (next_id s) k data :: nodes s) (S (next_id s)) (log s)). splits; auto.
    + unfold wf. simpl. splits.
      * constructor; auto. intros C. apply in_map_iff in C. destruct C as (y & E & Hy). exact (FN y Hy E).
      * constructor; auto. intros C. apply in_map_iff in C. destruct C as (y & E & Hy). specialize (Hid y Hy). lia.
      * intros x [<-|Hx]; simpl; auto. specialize (Hid x Hx). lia.
    + intros x [<-|Hx]; simpl; auto.
    + intros k' Hk' x Hx. simpl. split; auto. intros [<-|H]; auto. simpl in Hx. lia.
    + intros j o. assert (CU : cur s k = None) by (unfold cur, get_fss_data; now rewrite F).
      unfold d. replace (cur _ j) with (if Nat.eqb j k then data else cur s j).
      * simpl. rewrite CU. destruct (Nat.eqb_spec j k) as [->|]; [rewrite CU|]; destruct ce; simpl; lia.
      * unfold cur, get_fss_data, find. simpl. rewrite (Nat.eqb_sym k j). now destruct (j =? k).
Qed.

(** One call at the bottom of the stack (lo = everything) or inside the cleanup function of k (lo = above k). *)
Lemma op_ok cl o s (lo : nat -> Prop) m : pre lo s -> (forall j j', lo j -> j <= j' -> lo j') ->
  (forall k, lo k -> m <= k) -> cl_ok cl m ->
  match o with OReset j _ | ORelease j => lo j /\ j < K | OGet j => looks_up body -> lo j | OThrow => False end ->
  exists s', do_op cl o s = Done s' /\ pre lo s' /\ (forall k', ~ lo k' -> (forall j, lo j -> k' < j) -> keep k' s s') /\ (forall j o', d s' j o' = d s j o').
Proof.
  intros P UC Hm CL Ho. destruct o as [k|k t|k|]; [| | |tauto]; simpl.
  - eexists. split; [reflexivity|]. destruct P as [W KB D L]. assert (DD : forall j o', d (note (EGet k (get_fss_data s k)) s) j o' = d s j o') by (intros; rewrite d_note; lia).
    splits; auto.
    + split; [exact W|exact KB|intros; rewrite DD; auto|]. intros H. simpl. destruct (get_fss_data s k) as [o|] eqn:G; auto. split; auto. specialize (D k o (Ho H)). unfold d, cur in D. rewrite G in D. simpl in D. rewrite Nat.eqb_refl in D. lia.
    + intros. now apply keep_nodes.
  - destruct Ho as [Hl Hk]. destruct (same (get_fss_data s k) t) eqn:SM.
    + apply same_eq in SM. eexists. split; [reflexivity|]. assert (DD : forall j o', d (note (EReset k (get_fss_data s k) t) s) j o' = d s j o').
      { intros. rewrite d_note. rewrite SM, Nat.sub_diag. destruct (j =? k); lia. }
      destruct P as [W KB D L]. splits; auto.
      * split; [exact W|exact KB|intros; rewrite DD; auto|exact L].
      * intros. now apply keep_nodes.
    + destruct (set_ok cl k t true s lo P) as (s1 & -> & W1 & K1 & L1 & Kp & D1); auto.
      { intros k' vp s' Hk'. apply CL. specialize (Hm k Hl). lia. } { intros. eapply UC; eauto; lia. }
      simpl. eexists. split; [reflexivity|].
      assert (DD : forall j o', d (note (EReset k (get_fss_data s k) t) s1) j o' = d s j o').
      { intros j o'. rewrite d_note, D1. destruct (Nat.eqb_spec j k); [|lia]. fold (cur s k).
        assert (NE : cur s k <> t) by (intros C; apply same_eq in C; unfold cur in C; congruence).
        assert (is t o' = 0 \/ is (cur s k) o' = 0).
        { destruct t as [a|], (cur s k) as [b|]; simpl; auto. destruct (Nat.eqb_spec a o'), (Nat.eqb_spec b o'); auto. congruence. }
        lia. }
      splits; auto.
      * split; [exact W1|exact K1|intros; rewrite DD; now apply (p_d lo s P)|exact L1].
      * intros k' Hn Hk'. apply (Kp k'). auto.
  - destruct Ho as [Hl Hk]. destruct (set_ok cl k None false s lo P) as (s1 & -> & W1 & K1 & L1 & Kp & D1); auto.
    { intros k' vp s' Hk'. apply CL. specialize (Hm k Hl). lia. } { intros. eapply UC; eauto; lia. }
    simpl. eexists. split; [reflexivity|].
    assert (DD : forall j o', d (note (ERelease k (get_fss_data s k)) s1) j o' = d s j o').
    { intros j o'. rewrite d_note, D1. destruct (Nat.eqb_spec j k); [|lia]. fold (cur s k). simpl. lia. }
    splits; auto.
    + split; [exact W1|exact K1|intros; rewrite DD; now apply (p_d lo s P)|exact L1].
    + intros k' Hn Hk'. apply (Kp k'). auto.
Qed.

Lemma run_ok cl os k s : pre (lt k) s -> cl_ok cl (S k) ->
  (forall o, In o os -> match o with OReset j _ | ORelease j => k < j /\ j < K | OGet j => looks_up body -> k < j | OThrow => False end) ->
  exists s', run cl os s = Done s' /\ pre (lt k) s' /\ keep k s s' /\ (forall j o', d s' j o' = d s j o').
Proof.
  intros P CL. revert s P. induction os as [|o os IH]; simpl; intros s P Ho.
  - exists s. splits; auto using keep_refl.
  - destruct (op_ok cl o s (lt k) (S k) P) as (s1 & -> & P1 & Kp1 & D1); auto; [intros; lia|apply Ho; auto|]. simpl.
    destruct (IH s1 P1) as (s2 & -> & P2 & Kp2 & D2); [intros; apply Ho; auto|].
    exists s2. splits; auto.
    + eapply keep_trans; eauto. apply Kp1; auto. lia.
    + intros. now rewrite D2.
Qed.

Lemma cleanup_ok n : forall m, K <= n + m -> cl_ok (cleanup body n) m.
Proof.
  induction n as [|n IH]; intros m Hn k vp s Hk HK P; [lia|]. simpl.
  assert (P1 : pre (lt k) (note (ECleanup k vp) s)).
  { destruct P as [W KB D L]. split; auto. intros j o Hj. rewrite d_note. destruct (Nat.eqb_spec j k); [lia|]. rewrite D; auto. }
  destruct (run_ok (cleanup body n) (body k vp) k _ P1) as (s' & -> & P2 & Kp & D2).
  - apply IH. lia.
  - intros o Ho. specialize (UP k vp o Ho). specialize (BK k vp o Ho). destruct o; auto. intros LU. eapply LU; eauto.
  - exists s'. splits; auto. intros j o Hj. rewrite D2, d_note. destruct (j =? k); lia.
Qed.

(** The loop of terminate() at the element nd. *)
Lemma loop_ok cl : cl_ok cl 0 -> forall n nd s, K <= n + n_key nd -> In nd (nodes s) -> pre (lt (n_key nd)) s ->
  (forall o, d s (n_key nd) o = 0%Z) ->
  (forall j o, j < n_key nd -> d s j o = (- Z.of_nat (is (cur s j) o))%Z) ->
  exists s', loop cl n nd s = Done s' /\ wf s' /\ (looks_up body -> live (log s')) /\ forall j o, d s' j o = (- Z.of_nat (is (cur s' j) o))%Z.
Proof.
  intros CL. induction n as [|n IH]; intros nd s Hn Hin P Dnd Dlo.
  - exfalso. pose proof (p_k _ _ P nd Hin). simpl in Hn. lia.
  - simpl. pose proof (p_k _ _ P nd Hin) as HK.
    destruct (CL (n_key nd) (n_vp nd) s) as (s1 & -> & P1 & Kp & D1); auto; [lia|]. simpl.
    assert (Hin1 : In nd (nodes s1)) by (apply Kp; auto).
    assert (A : alive (n_id nd) (nodes s1) = true) by (apply alive_true; eauto). rewrite A.
    assert (CUn : cur s (n_key nd) = n_vp nd).
    { unfold cur, get_fss_data. rewrite (find_in (n_key nd) (nodes s) nd); auto. apply (p_wf _ _ P). }
    assert (Dle : forall j o, j <= n_key nd -> d s1 j o = (- Z.of_nat (is (cur s1 j) o))%Z).
    { intros j o Hj. rewrite D1; auto. rewrite (keep_cur (n_key nd) s s1 j); auto using (p_wf _ _ P), (p_wf _ _ P1).
      destruct (Nat.eqb_spec j (n_key nd)) as [->|]; [rewrite Dnd, CUn; lia|rewrite Dlo; lia]. }
    destruct (least (Nat.ltb (n_key nd)) (nodes s1)) as [nd'|] eqn:LS.
    + destruct (least_some _ _ _ LS) as (Hi' & Hlt & Hmin). apply Nat.ltb_lt in Hlt.
      apply IH; auto.
      * lia.
      * destruct P1 as [W1 K1 D1' L1]. split; auto. intros j o Hj. apply D1'. lia.
      * intros o. apply (p_d _ _ P1). auto.
      * intros j o Hj. destruct (le_lt_dec j (n_key nd)) as [Hj'|Hj']; [auto|].
        assert (C : cur s1 j = None).
        { unfold cur, get_fss_data. destruct (find j (nodes s1)) as [y|] eqn:F; auto. exfalso. destruct (find_some _ _ _ F) as [Hy Ey].
          specialize (Hmin y Hy). rewrite Nat.ltb_lt in Hmin. lia. }
        rewrite C. simpl. now apply (p_d _ _ P1).
    + exists s1. splits; auto; try apply P1. intros j o. destruct (le_lt_dec j (n_key nd)) as [Hj'|Hj']; [auto|].
      assert (C : cur s1 j = None).
      { unfold cur, get_fss_data. destruct (find j (nodes s1)) as [y|] eqn:F; auto. exfalso. destruct (find_some _ _ _ F) as [Hy Ey].
        pose proof (least_none _ _ LS y Hy) as X. rewrite Nat.ltb_nlt in X. lia. }
      rewrite C. simpl. now apply (p_d _ _ P1).
Qed.

Definition every (_ : nat) : Prop := True.
Lemma calls_ok n os : K <= n -> below K os -> no_throw os -> forall s, pre every s ->
  exists s', calls body n os s = Done s' /\ pre every s'.
Proof.
  intros Hn. induction os as [|o os IH]; simpl; intros B NT s P; [eauto|].
  destruct (op_ok (cleanup body n) o s every 0 P) as (s1 & E & P1 & _); try (unfold every; intros; auto; lia).
  - apply cleanup_ok. lia.
  - specialize (B o (or_introl eq_refl)). destruct o; unfold every; auto. apply NT. simpl. auto.
  - rewrite E. apply IH; auto.
    + intros o' Ho'. apply B. simpl. auto.
    + intros C. apply NT. simpl. auto.
Qed.
Lemma terminate_ok n s : K <= n -> pre every s ->
  exists s', terminate body n s = Done s' /\ nodes s' = [] /\ (looks_up body -> live (log s')) /\ balanced (log s').
Proof.
  intros Hn P. unfold terminate.
  assert (X : exists s1, (match least (fun _ => true) (nodes s) with Some nd => loop (cleanup body n) n nd s | None => Done s end) = Done s1 /\
     (looks_up body -> live (log s1)) /\ forall j o, d s1 j o = (- Z.of_nat (is (cur s1 j) o))%Z).
  { destruct (least (fun _ => true) (nodes s)) as [nd|] eqn:LS.
    - destruct (least_some _ _ _ LS) as (Hi & _ & Hmin).
      destruct (loop_ok (cleanup body n) (cleanup_ok n 0 ltac:(lia)) n nd s) as (s1 & E & _ & L & D); auto; try lia.
      + destruct P as [W KB D L]. split; auto. intros j o _. apply D. exact I.
      + intros. apply (p_d _ _ P). exact I.
      + intros j o Hj. assert (C : cur s j = None).
        { unfold cur, get_fss_data. destruct (find j (nodes s)) as [y|] eqn:F; auto. exfalso. destruct (find_some _ _ _ F) as [Hy Ey]. specialize (Hmin y Hy eq_refl). lia. }
        rewrite C. simpl. apply (p_d _ _ P). exact I.
      + eauto.
    - exists s. splits; auto; [apply P|]. intros j o. assert (C : cur s j = None).
      { unfold cur, get_fss_data. destruct (find j (nodes s)) as [y|] eqn:F; auto. exfalso. destruct (find_some _ _ _ F) as [Hy Ey]. pose proof (least_none _ _ LS y Hy). discriminate. }
      rewrite C. simpl. apply (p_d _ _ P). exact I. }
  destruct X as (s1 & -> & L & D). simpl. eexists. splits; auto. intros k o. simpl. specialize (D k o). unfold d in D. lia.
Qed.
Lemma fiber_ok n os : K <= n -> below K os -> no_throw os ->
  exists s', fiber body n os = Done s' /\ nodes s' = [] /\ (looks_up body -> live (log s')) /\ balanced (log s').
Proof.
  intros Hn B NT. destruct (calls_ok n os Hn B NT init_state) as (s1 & E & P1).
  { split; unfold wf, keys_below; simpl; splits; try constructor; try tauto. }
  unfold fiber. rewrite E. simpl. now apply terminate_ok.
Qed.
End Up.

(** ** No iterator is invalidated as long as nothing is erased *)
Section Stores.
Variable body : body_t.
Hypothesis OS : only_stores body.
Definition grows (s : st) (r : res) : Prop :=
  match r with Done s' => forall i, alive i (nodes s) = true -> alive i (nodes s') = true | Out => True | _ => False end.
Lemma grows_bind s r f : grows s r -> (forall s1, r = Done s1 -> grows s1 (f s1)) -> grows s (bind r f).
Proof.
  destruct r as [s1| | | |]; simpl; auto. intros G H. specialize (H s1 eq_refl). destruct (f s1); simpl in *; auto.
Qed.
Lemma alive_assign i j v m : alive i (assign j v m) = alive i m.
Proof. unfold alive, assign. induction m as [|x m IH]; simpl; auto. rewrite IH. now destruct (n_id x =? j). Qed.
Lemma find_alive k m x : find k m = Some x -> alive (n_id x) m = true.
Proof. intros F. apply alive_true. exists x. split; auto. apply (find_some _ _ _ F). Qed.
Lemma op_grows cl o s : (forall k v s1, grows s1 (cl k v s1)) -> match o with OReset _ (Some _) | OGet _ => True | _ => False end -> grows s (do_op cl o s).
Proof.
  intros CL Ho. destruct o as [k|k [t|]|k|]; simpl; try tauto.
  destruct (same (get_fss_data s k) (Some t)); [now simpl|]. apply grows_bind; [|now simpl].
  unfold set_fss_data. destruct (find k (nodes s)) as [i|] eqn:F.
  - pose proof (CL k (n_vp i) s) as G. destruct (cl k (n_vp i) s) as [s1| | | |]; simpl in *; auto.
    rewrite (G _ (find_alive _ _ _ F)). simpl. intros j Hj. rewrite alive_assign. auto.
  - simpl. intros i Hi. rewrite Hi. apply orb_true_r.
Qed.
Lemma run_grows cl os : (forall k v s1, grows s1 (cl k v s1)) -> (forall o, In o os -> match o with OReset _ (Some _) | OGet _ => True | _ => False end) ->
  forall s, grows s (run cl os s).
Proof.
  intros CL. induction os as [|o os IH]; simpl; intros Ho s; [now simpl|]. apply grows_bind; [apply op_grows; [auto|apply Ho; auto]|]. intros s1 _. apply IH. intros o' Ho'. apply Ho. auto.
Qed.
Lemma cleanup_grows n : forall k v s, grows s (cleanup body n k v s).
Proof.
  induction n as [|n IH]; simpl; intros k v s; [exact I|].
  pose proof (run_grows (cleanup body n) (body k v) IH (OS k v) (note (ECleanup k v) s)) as G. destruct (run _ _ _); simpl in *; auto.
Qed.
Lemma loop_grows n : forall m nd s, alive (n_id nd) (nodes s) = true -> grows s (loop (cleanup body n) m nd s).
Proof.
  induction m as [|m IH]; simpl; intros nd s A; [exact I|]. apply grows_bind; [apply cleanup_grows|]. intros s1 E.
  pose proof (cleanup_grows n (n_key nd) (n_vp nd) s) as G. rewrite E in G. simpl in G. rewrite (G _ A).
  destruct (least _ (nodes s1)) as [nd'|] eqn:L; [|now simpl]. apply IH. apply alive_true. exists nd'. split; auto. apply (least_some _ _ _ L).
Qed.
End Stores.
