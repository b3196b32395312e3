(** C46, C70 (lock-free queue), C73: the lock-free ready queue of work_stealing. *)
From Coq Require Import List Arith Bool Lia.
From Verif Require Import Base Spmc SpmcSpec SpmcFacts SpmcProofs.
Import ListNotations.

Lemma ran W p c ls (P : st -> Prop) : match exec (step W p) (init_state c) ls with Some s => P s | None => False end -> exists s, exec (step W p) (init_state c) ls = Some s /\ P s.
Proof. destruct (exec (step W p) (init_state c) ls) as [s|]; [eauto|contradiction]. Qed.
Definition push5 (c : nat) : list label := [Push c; Own; Own; Own; Own].
Definition steal5 (u : nat) : list label := [Steal u; Go u; Go u; Go u; Go u; Go u].

(** C46: whatever the owner and any number of thieves do: no element is obtained twice, only pushed elements are obtained ... *)
Theorem C46_exactly_once : forall W pinned capacity s, 0 < capacity -> reachable (step W pinned) (init_state capacity) s -> pushes (log s) < W ->
  forall n, takes (log s) n <= 1 /\ (0 < takes (log s) n -> pushed (log s) n).
Proof.
  intros W p c s Hc R HW n. destruct (invs_reach W p c s Hc R HW) as [[_ [Q I]]|F].
  - apply (a_once _ _ _ (i_abs _ _ _ I)).
  - destruct (f_log _ _ F n) as [-> _]. lia.
Qed.
(** ... and none is lost: whenever the owner is not in a call, popping gives it every pushed element not obtained yet. *)
Theorem C46_no_loss : forall W pinned capacity s n, 0 < capacity -> reachable (step W pinned) (init_state capacity) s -> pushes (log s) < W -> own s = OIdle -> pushed (log s) n -> takes (log s) n = 0 ->
  exists ls s', owner_only ls /\ exec (step W pinned) s ls = Some s' /\ takes (log s') n = 1.
Proof.
  intros W p c s n Hc R HW O P T. destruct (invs_reach W p c s Hc R HW) as [[PF [Q I]]|F]; [|destruct (f_log _ _ F n) as [_ X]; contradiction].
  eapply (drain W p (length Q) s Q); eauto. destruct (proj2 (a_in _ _ _ (i_abs _ _ _ I) n)) as [X|X]; auto. rewrite O in X. discriminate.
Qed.
(** Pinned contexts (main, dispatcher) are never stolen. *)
Theorem C46_pinned : forall W pinned capacity s u n c, 0 < capacity -> reachable (step W pinned) (init_state capacity) s -> pushes (log s) < W ->
  In (ESteal u (Some n)) (log s) -> In (EPush n c) (log s) -> pinned c = false.
Proof.
  intros W p k s u n c Hc R HW H1 H2. destruct (invs_reach W p k s Hc R HW) as [[_ [Q I]]|F]; [|now apply (f_steal _ _ F) in H1].
  apply (i_stolen _ _ _ I) in H1. apply (i_ictx _ _ _ I) in H2. destruct H1, H2. congruence.
Qed.
(** Order: a thief gets the oldest element, pop() the newest; pop() returns nullptr only if everything was obtained. *)
Theorem C46_steal_oldest : forall W pinned capacity s l1 u n l2, 0 < capacity -> reachable (step W pinned) (init_state capacity) s -> pushes (log s) < W ->
  log s = l1 ++ ESteal u (Some n) :: l2 -> forall m, pushed l2 m -> m < n -> takes l2 m = 1.
Proof.
  intros W p k s l1 u n l2 Hc R HW E. destruct (invs_reach W p k s Hc R HW) as [[_ [Q I]]|F].
  - apply (a_steal _ _ _ (i_abs _ _ _ I) _ _ _ _ E).
  - exfalso. apply (f_steal _ _ F u n). rewrite E. apply in_or_app. simpl. auto.
Qed.
Theorem C46_pop_newest : forall W pinned capacity s l1 n l2, 0 < capacity -> reachable (step W pinned) (init_state capacity) s -> pushes (log s) < W ->
  log s = l1 ++ EPop (Some n) :: l2 -> forall m, pushed l2 m -> n < m -> takes l2 m = 1.
Proof.
  intros W p k s l1 n l2 Hc R HW E. destruct (invs_reach W p k s Hc R HW) as [[_ [Q I]]|F].
  - apply (a_pop _ _ _ (i_abs _ _ _ I) _ _ _ E).
  - intros m Hm. exfalso. apply (proj2 (f_log _ _ F m)). unfold pushed. rewrite E. apply in_or_app. right. now right.
Qed.
Theorem C46_pop_empty : forall W pinned capacity s l1 l2, 0 < capacity -> reachable (step W pinned) (init_state capacity) s -> pushes (log s) < W ->
  log s = l1 ++ EPop None :: l2 -> forall m, pushed l2 m -> takes l2 m = 1.
Proof.
  intros W p k s l1 l2 Hc R HW E. destruct (invs_reach W p k s Hc R HW) as [[_ [Q I]]|F].
  - apply (a_pop _ _ _ (i_abs _ _ _ I) _ _ _ E).
  - intros m Hm. exfalso. apply (proj2 (f_log _ _ F m)). unfold pushed. rewrite E. apply in_or_app. right. now right.
Qed.
(** A run with growth of the array (capacity 1), a lost race of a thief against a thief, a steal and two pops, the second with a race for the last element. *)
Example C46_ex : exists s, exec (step 100 (fun c => c =? 9)) (init_state 1) (push5 7 ++ push5 8 ++ push5 9 ++ [Steal 1; Go 1; Go 1; Go 1; Go 1] ++ steal5 2 ++ [Go 1] ++ [Pop; Own; Own] ++ [Steal 3; Go 3; Go 3; Go 3; Go 3; Pop; Own; Own; Go 3; Own; Own]) = Some s /\
  (arr s = 2 /\ cap s 2 = 4 /\ log s = [EPop None; ESteal 3 (Some 1); ECallPop; EAccess 3 1; EPop (Some 2); ECallPop; ESteal 1 None; ESteal 2 (Some 0); EAccess 2 0; EAccess 1 0; EPushed 2; EPush 2 9; EPushed 1; EPush 1 8; EPushed 0; EPush 0 7]).
Proof. apply ran. vm_compute. splits; reflexivity. Qed.
Example C46_ex_pinned : exists s, exec (step 100 (fun c => c =? 9)) (init_state 4) (push5 9 ++ [Steal 1; Go 1; Go 1; Go 1; Go 1]) = Some s /\ (log s = [ESteal 1 None; EAccess 1 0; EPushed 0; EPush 0 9] /\ pushed (log s) 0 /\ takes (log s) 0 = 0 /\ own s = OIdle /\ pushes (log s) < 100).
Proof. apply ran. vm_compute. splits; auto. repeat (apply le_n || apply le_S). Qed.

(** C73 is false of the code. (1) A thief which has been overtaken reads a cell of the new array that was never written: the assertion fails (without assertions a null pointer is dereferenced), with every initial capacity from 2 on. *)
Lemma push5_run W p s c : own s = OIdle -> top s <= bottom s -> S (bottom s) < W -> bottom s - top s < cap s (arr s) ->
  exec (step W p) s (push5 c) = Some (mkSt (top s) (S (bottom s)) (arr s) (cap s) (upd (cell s) (arr s) (upd (cell s (arr s)) (bottom s mod cap s (arr s)) (Some (next s)))) OIdle (thief s) (S (next s)) (upd (ictx s) (next s) c) (EPushed (next s) :: EPush (next s) c :: log s)).
Proof.
  intros O H HW HC. unfold push5. cbn [exec]. unfold step at 1. rewrite O. unfold step at 1, own_step. cbn [own top with_own]. unfold step at 1, own_step. cbn [own top with_own arr cap]. rewrite (diff_ok W (bottom s) (top s) H). destruct (Nat.ltb_spec (cap s (arr s) - 1) (bottom s - top s)); [lia|].
  unfold step at 1, own_step. cbn [own top with_own arr cap cell]. unfold step, own_step. cbn [own top with_own arr cap cell]. rewrite inc_ok by auto. reflexivity.
Qed.
Lemma push5_grow W p s c : own s = OIdle -> top s <= bottom s -> S (bottom s) < W -> cap s (arr s) <= bottom s - top s -> 0 < cap s (arr s) ->
  exec (step W p) s (push5 c) = Some (mkSt (top s) (S (bottom s)) (S (arr s)) (upd (cap s) (S (arr s)) (2 * cap s (arr s)))
    (let cl := upd (cell s) (S (arr s)) (copy W (cell s (arr s)) (fun _ => None) (cap s (arr s)) (top s) (bottom s - top s)) in
     upd cl (S (arr s)) (upd (cl (S (arr s))) (bottom s mod (2 * cap s (arr s))) (Some (next s)))) OIdle (thief s) (S (next s)) (upd (ictx s) (next s) c) (EPushed (next s) :: EPush (next s) c :: log s)).
Proof.
  intros O H HW HC Hp. unfold push5. cbn [exec]. unfold step at 1. rewrite O. unfold step at 1, own_step. cbn [own top with_own]. unfold step at 1, own_step. cbn [own top with_own arr cap]. rewrite (diff_ok W (bottom s) (top s) H). destruct (Nat.ltb_spec (cap s (arr s) - 1) (bottom s - top s)); [|lia].
  unfold step at 1, own_step. cbn [own top with_own arr cap cell]. unfold step, own_step. cbn [own top with_own arr cap cell]. rewrite inc_ok by auto. cbv zeta. rewrite !upd_same. reflexivity.
Qed.
Lemma copy_none W old c : forall k new i x, new x = None -> (forall j, i <= j < i + k -> j mod (2 * c) <> x) -> i + k < W -> copy W old new c i k x = None.
Proof.
  induction k as [|k IH]; intros new i x N H Hw; cbn [copy]; auto. rewrite inc_ok by lia. apply IH; [|intros j Hj; apply H; lia|lia]. rewrite upd_other; auto. apply not_eq_sym, H. lia.
Qed.
Lemma push_many W p c (d : nat) : forall k s, own s = OIdle -> top s = 1 -> bottom s = c - k + 1 -> k <= c -> c + 2 < W -> arr s = 0 -> cap s 0 = c -> push_first (log s) ->
  exists ls s', exec (step W p) s ls = Some s' /\ own s' = OIdle /\ top s' = 1 /\ bottom s' = c + 1 /\ arr s' = 0 /\ cap s' 0 = c /\ thief s' = thief s /\ next s' = k + next s /\ push_first (log s') /\ pushes (log s') = k + pushes (log s).
Proof.
  induction k as [|k IH]; intros s O T B K HW A C PF; [exists [], s; simpl; splits; auto; lia|].
  destruct (IH (mkSt (top s) (S (bottom s)) (arr s) (cap s) (upd (cell s) (arr s) (upd (cell s (arr s)) (bottom s mod cap s (arr s)) (Some (next s)))) OIdle (thief s) (S (next s)) (upd (ictx s) (next s) d) (EPushed (next s) :: EPush (next s) d :: log s))) as (ls & s' & E & H); simpl; auto; try lia.
  exists (push5 d ++ ls), s'. split.
  - apply exec_app. eexists. split; [apply push5_run; auto; try lia; rewrite A, C; lia|exact E].
  - simpl in H. splits; try tauto; lia.
Qed.
Local Arguments Nat.modulo : simpl never.
Local Arguments inc : simpl never.
Theorem C73_refuted_null : forall W pinned capacity d, 2 <= capacity -> capacity + 3 < W -> pinned d = false ->
  exists s, reachable (step W pinned) (init_state capacity) s /\ pushes (log s) < W /\ push_first (log s) /\ own s = OIdle /\ thief s 1 = TCrashed /\ In EAssert (log s).
Proof.
  intros W p c d Hc HW Pd.
  assert (E1 : exists s, exec (step W p) (init_state c) (push5 d ++ push5 d ++ [Steal 1; Go 1] ++ steal5 2) = Some s /\ (own s = OIdle /\ top s = 1 /\ bottom s = 2 /\ arr s = 0 /\ cap s 0 = c /\ thief s 1 = SArr 0 /\ next s = 2 /\ push_first (log s) /\ pushes (log s) = 2)).
  { assert (E0 : exists s, exec (step W p) (init_state c) (push5 d ++ push5 d) = Some s /\ (own s = OIdle /\ top s = 0 /\ bottom s = 2 /\ arr s = 0 /\ cap s 0 = c /\ cell s 0 0 = Some 0 /\ thief s = (fun _ => TIdle) /\ next s = 2 /\ ictx s 0 = d /\ log s = [EPushed 1; EPush 1 d; EPushed 0; EPush 0 d])).
    { assert (Ea := push5_run W p (init_state c) d). cbn [init_state own top bottom arr cap cell thief next ictx log] in Ea. specialize (Ea eq_refl ltac:(lia) ltac:(lia) ltac:(lia)). match type of Ea with _ = Some ?x => set (sa := x) in Ea end.
      assert (Eb := push5_run W p sa d). unfold sa in Eb at 2 3 4 5 6 7 8 9 10 11 12 13 14 15 16 17 18 19 20 21 22. cbn [own top bottom arr cap cell thief next ictx log] in Eb. specialize (Eb eq_refl ltac:(lia) ltac:(lia) ltac:(lia)).
      eexists. split; [apply exec_app; exists sa; split; [exact Ea|exact Eb]|]. cbn [own top bottom arr cap cell thief next ictx log]. splits; auto. rewrite !upd_same, Nat.mod_0_l, Nat.mod_small by lia. rewrite upd_other by lia. now rewrite !upd_same. }
    destruct E0 as (s0 & E0 & O & T & B & A & C & Ce & Th & N & Ic & Lg).
    assert (Es : exists s, exec (step W p) s0 ([Steal 1; Go 1] ++ steal5 2) = Some s /\ (own s = own s0 /\ top s = 1 /\ bottom s = bottom s0 /\ arr s = arr s0 /\ cap s = cap s0 /\ thief s 1 = SArr 0 /\ next s = next s0 /\ log s = ESteal 2 (Some 0) :: EAccess 2 0 :: log s0)).
    { destruct s0 as [t0 b0 a0 c0 ce0 o0 th0 n0 i0 l0]. cbn [own top bottom arr cap cell thief next ictx log] in *. subst t0 b0 a0 th0. unfold steal5. simpl. unfold thief_step at 1. simpl. rewrite C, Nat.mod_0_l, Ce by lia. unfold thief_step at 1. simpl. rewrite Ic, Pd. unfold thief_step at 1. simpl. rewrite inc_ok by lia. eexists. split; [reflexivity|]. cbn. splits; auto. }
    destruct Es as (s & Es & O' & T' & B' & A' & C' & Th' & N' & L'). exists s. split.
    - rewrite app_assoc. apply exec_app. eauto.
    - rewrite O', B', A', C', N', L', Lg. simpl. splits; auto. }
  destruct E1 as (s1 & E1 & O1 & T1 & B1 & A1 & C1 & Th1 & N1 & PF1 & P1).
  destruct (push_many W p c d (c - 1) s1) as (ls2 & s2 & E2 & O2 & T2 & B2 & A2 & C2 & Th2 & N2 & PF2 & P2); auto; try lia.
  assert (E3 := push5_grow W p s2 d O2). rewrite T2, B2, A2, C2 in E3. replace (c + 1 - 1) with c in E3 by lia. specialize (E3 ltac:(lia) ltac:(lia) ltac:(lia) ltac:(lia)).
  match type of E3 with _ = Some ?x => set (s3 := x) in E3 end.
  assert (Cn : cell s3 1 0 = None). { unfold s3. cbn [cell]. rewrite !upd_same. rewrite upd_other; [apply copy_none; auto; [|lia]|rewrite Nat.mod_small; lia]. intros j Hj. rewrite Nat.mod_small; lia. }
  assert (E4 : exists s4, exec (step W p) s3 [Go 1; Go 1] = Some s4 /\ (own s4 = OIdle /\ thief s4 1 = TCrashed /\ log s4 = EAssert :: log s3)).
  { cbn [exec]. unfold step at 1. unfold thief_step. unfold s3 at 1. cbn [thief]. rewrite Th2, Th1. unfold step, thief_step. unfold with_thief at 1. cbn [thief]. rewrite upd_same. cbn [cell with_thief cap]. replace (arr s3) with 1 by reflexivity. replace (cap s3 1) with (2 * c) by (unfold s3; cbn [cap]; now rewrite upd_same). rewrite Nat.mod_0_l by lia. rewrite Cn. eexists. split; [reflexivity|]. cbn. splits; auto. }
  destruct E4 as (s4 & E4 & O4 & T4 & L4). exists s4. splits; auto.
  - exists ((push5 d ++ push5 d ++ [Steal 1; Go 1] ++ steal5 2) ++ ls2 ++ push5 d ++ [Go 1; Go 1]). apply exec_app. exists s1. split; auto. apply exec_app. exists s2. split; auto. apply exec_app. eauto.
  - rewrite L4. unfold s3. simpl. lia.
  - rewrite L4. unfold s3. simpl. auto.
  - rewrite L4. now left.
Qed.
(** (2) steal() accesses a context that pop() has already returned (it may have finished and been destroyed since). *)
Theorem C73_refuted_taken : exists W pinned capacity s l, 0 < capacity /\ reachable (step W pinned) (init_state capacity) s /\ pushes (log s) < W /\ push_first (log s) /\ log s = EAccess 1 0 :: l /\ takes l 0 = 1.
Proof.
  destruct (ran 100 (fun _ => false) 2 (push5 7 ++ [Steal 1; Go 1; Go 1; Go 1; Pop; Own; Own; Own; Own; Go 1]) (fun s => log s = [EAccess 1 0; EPop (Some 0); ECallPop; EPushed 0; EPush 0 7])) as (s & E & H); [vm_compute; reflexivity|].
  exists 100, (fun _ => false), 2, s, [EPop (Some 0); ECallPop; EPushed 0; EPush 0 7]. rewrite H. splits; simpl; auto; try lia. eexists; eauto.
Qed.
(** (3) pop() before the first push() fails its assertion (without assertions it sets bottom_ to the greatest word and the next push() copies without end). *)
Theorem C73_refuted_fresh : forall W pinned capacity, 0 < W -> exists s, exec (step W pinned) (init_state capacity) [Pop; Own; Own] = Some s /\ own s = OCrashed /\ In EAssert (log s).
Proof. intros W p c HW. cbn. eexists. splits; [reflexivity|reflexivity|now left]. Qed.
(** What holds: the owner never fails an assertion if something was pushed before the first pop() ... *)
Theorem C73_owner_partial : forall W pinned capacity s, 0 < capacity -> reachable (step W pinned) (init_state capacity) s -> pushes (log s) < W -> push_first (log s) -> own s <> OCrashed.
Proof. intros W p c s Hc R HW HF E. destruct (inv_reach W p c s Hc R HW HF) as [Q I]. pose proof (i_own _ _ _ I) as O. unfold own_ok in O. now rewrite E in O. Qed.
(** The value of top_ a thief has loaded. *)
Definition loaded (p : tpc) : option nat := match p with SBot t | SArr t | SCell t _ | SPin t _ | SCas t _ => Some t | TIdle | TCrashed => None end.
(** ... and a thief that nobody has overtaken since it loaded top_ fails no assertion and accesses an element that nobody has obtained. *)
Theorem C73_thief_partial : forall W pinned capacity s u s', 0 < capacity -> reachable (step W pinned) (init_state capacity) s -> pushes (log s) < W -> push_first (log s) ->
  loaded (thief s u) = Some (top s) -> step W pinned s (Go u) = Some s' ->
  thief s' u <> TCrashed /\ forall n l1, log s' = l1 ++ EAccess u n :: log s -> pushed (log s) n /\ takes (log s) n = 0.
Proof.
  intros W p c s u s' Hc R HW HF L E. destruct (inv_reach W p c s Hc R HW HF) as [Q I]. pose proof (i_thief _ _ _ I u) as T. unfold step, thief_step in E.
  assert (NoAcc : forall n l1 l, l = l1 ++ EAccess u n :: l -> False) by (intros n l1 l H; apply (f_equal (@length _)) in H; rewrite app_length in H; simpl in H; lia).
  assert (NoAcc1 : forall e n l1 l, e <> EAccess u n -> e :: l = l1 ++ EAccess u n :: l -> False). { intros e n l1 l Ne H. destruct l1 as [|x l1]; simpl in H; [congruence|]. injection H as _ H. eapply NoAcc; eauto. }
  destruct (thief s u) as [|t|t|t a|t n|t n|] eqn:Tu; try discriminate; cbn [loaded thief_ok] in *; injection L as ->.
  - destruct (top s <? bottom s); injection E as <-; cbn [thief log with_thief app]; rewrite upd_same; split; try discriminate; intros n l1 H; exfalso; [eapply NoAcc; eauto|eapply NoAcc1; [|eauto]; discriminate].
  - injection E as <-; cbn [thief log with_thief app]; rewrite upd_same; split; try discriminate; intros n l1 H; exfalso; eapply NoAcc; eauto.
  - destruct T as (_ & _ & T). destruct (T eq_refl) as [T1 T2]. destruct (at_top p s Q I T1) as (m & Q' & EQ & Em). rewrite T2, Em in E. injection E as <-; cbn [thief log with_thief app]; rewrite upd_same; split; try discriminate; intros n l1 H; exfalso; eapply NoAcc; eauto.
  - destruct T as (_ & _ & T). destruct (T eq_refl) as [T1 T2]. destruct (at_top p s Q I T1) as (m & Q' & EQ & Em). rewrite T2 in Em. injection Em as <-. assert (G : pushed (log s) n /\ takes (log s) n = 0) by (apply (a_in _ _ _ (i_abs _ _ _ I) n); left; rewrite EQ; now left).
    destruct (p (ictx s n)); injection E as <-; cbn [thief log with_thief app]; rewrite upd_same; split; try discriminate; intros k l1 H.
    + destruct l1 as [|x l1]; simpl in H; [discriminate|]. injection H as _ H. destruct l1 as [|y l1]; simpl in H; [injection H as <-; auto|]. injection H as _ H. exfalso. eapply NoAcc; eauto.
    + destruct l1 as [|y l1]; simpl in H; [injection H as <-; auto|]. injection H as _ H. exfalso. eapply NoAcc; eauto.
  - destruct (top s =? top s); injection E as <-; cbn [thief log with_thief app]; rewrite upd_same; split; try discriminate; intros k l1 H; exfalso; eapply NoAcc1; try eauto; discriminate.
Qed.
Example C73_ex : exists s, exec (step 100 (fun _ => false)) (init_state 2) (push5 7 ++ [Steal 1; Go 1; Go 1; Go 1]) = Some s /\ (thief s 1 = SPin 0 0 /\ loaded (thief s 1) = Some (top s) /\ push_first (log s) /\ own s = OIdle /\ option_map log (step 100 (fun _ => false) s (Go 1)) = Some (EAccess 1 0 :: log s)).
Proof. apply ran. vm_compute. splits; auto. Qed.

(** C70 with the lock-free queue: pop() takes the newest element, so a thread whose fiber is pushed again whenever it was popped resumes only that one: whatever number of times the owner picks, the element below (the dispatcher, say) is never taken. *)
Theorem C70_refuted_spmc : forall W pinned capacity d f k, 2 <= capacity -> k + 2 < W ->
  exists s, reachable (step W pinned) (init_state capacity) s /\ own s = OIdle /\ In (EPush 0 d) (log s) /\ pushed (log s) 0 /\ takes (log s) 0 = 0 /\ (forall n, 1 <= n <= k -> In (EPush n f) (log s) /\ In (EPop (Some n)) (log s)).
Proof.
  intros W p c d f k Hc HW. assert (G : exists s, reachable (step W p) (init_state c) s /\ own s = OIdle /\ top s = 0 /\ bottom s = 1 /\ cap s (arr s) = c /\ next s = S k /\ In (EPush 0 d) (log s) /\ pushed (log s) 0 /\ takes (log s) 0 = 0 /\ (forall n, 1 <= n <= k -> In (EPush n f) (log s) /\ In (EPop (Some n)) (log s))).
  { induction k as [|k IH].
    - eexists. split; [exists (push5 d); apply push5_run; simpl; auto; lia|]. cbn. splits; auto. intros n Hn. lia.
    - destruct IH as (s & [ls R] & O & T & B & C & N & H1 & H2 & H3 & H4); [lia|].
      assert (E1 : exec (step W p) s (push5 f) = Some (mkSt (top s) (S (bottom s)) (arr s) (cap s) (upd (cell s) (arr s) (upd (cell s (arr s)) (bottom s mod cap s (arr s)) (Some (next s)))) OIdle (thief s) (S (next s)) (upd (ictx s) (next s) f) (EPushed (next s) :: EPush (next s) f :: log s))) by (apply push5_run; auto; lia).
      match type of E1 with _ = Some ?x => set (s1 := x) in E1 end.
      assert (E2 : exec (step W p) s1 [Pop; Own; Own] = Some (mkSt (top s1) 1 (arr s1) (cap s1) (cell s1) OIdle (thief s1) (next s1) (ictx s1) (EPop (Some (next s)) :: ECallPop :: log s1))).
      { cbn [exec]. unfold step at 1. unfold s1 at 1. cbn [own]. replace (bottom s1) with 2 by (unfold s1; cbn [bottom]; lia). unfold step at 1, own_step. cbn [own with_own dec]. unfold step, own_step. cbn [own with_own top arr cap cell]. replace (top s1) with 0 by (unfold s1; cbn [top]; lia). replace (cap s1 (arr s1)) with c by (unfold s1; cbn [cap arr]; auto). replace (cell s1 (arr s1) (1 mod c)) with (Some (next s)) by (unfold s1; cbn [cell arr]; rewrite upd_same, B, C, upd_same; auto). reflexivity. }
      eexists. split; [exists (ls ++ push5 f ++ [Pop; Own; Own]); apply exec_app; exists s; split; [exact R|]; apply exec_app; eexists; split; [exact E1|exact E2]|].
      unfold s1. cbn [own top bottom cap arr next log takes]. splits; auto; try lia.
      + simpl. tauto. + unfold pushed in *. simpl. tauto. + destruct (Nat.eqb_spec 0 (next s)); [lia|]. auto.
      + intros n Hn. simpl. destruct (Nat.eq_dec n (S k)) as [->|D]; [rewrite N; tauto|]. destruct (H4 n) as [K1 K2]; [lia|]. tauto. }
  destruct G as (s & R & O & _ & _ & _ & _ & H). exists s. tauto.
Qed.

Print Assumptions C46_exactly_once. Print Assumptions C46_no_loss. Print Assumptions C46_pinned. Print Assumptions C46_steal_oldest. Print Assumptions C46_pop_newest. Print Assumptions C46_pop_empty.
Print Assumptions C73_refuted_null. Print Assumptions C73_refuted_taken. Print Assumptions C73_refuted_fresh. Print Assumptions C73_owner_partial. Print Assumptions C73_thief_partial. Print Assumptions C70_refuted_spmc.
