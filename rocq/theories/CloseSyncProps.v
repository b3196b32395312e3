(** C124: close() and the operations that return closed. *)
From Coq Require Import List Arith Bool Lia.
From Verif Require Import Base CloseSync.
Import ListNotations.

(** Everything that the closing thread has done before close() happens before the return of the operations chosen by [sel]. *)
Definition synced (sel : bool -> bool) (l : list event) : Prop :=
  forall a t v w b, l = a ++ EClosed t v w :: b -> sel w = true -> forall a' c b', b = a' ++ EClose c :: b' -> forall n, In (EAct c n) b' -> In n v.

(** C124 is false of unbuffered_channel: closed_.exchange( true, std::memory_order_acquire) does not release. Thread 1 sees that the channel is closed, but what thread 0 has written before does not happen before. *)
Theorem C124_refuted : exists s, reachable step init_state s /\ ~ synced (fun _ => true) (log s) /\ log s = [EClosed 1 [] false; EClose 0; EAct 0 0].
Proof.
  assert (X : exists s, reachable step init_state s /\ log s = [EClosed 1 [] false; EClose 0; EAct 0 0]) by (apply (reach_by step init_state [Act 0; Close 0; Top 1 true]); vm_compute; auto).
  destruct X as (s & R & L). exists s. splits; auto. rewrite L. intros S. exact (S [] 1 [] false [EClose 0; EAct 0 0] eq_refl eq_refl [] 0 [EAct 0 0] eq_refl 0 (or_introl eq_refl)).
Qed.
Print Assumptions C124_refuted.

(** What happens before: all actions of the closing thread before close(). *)
Definition cov (l : list event) (v : list nat) : Prop := forall a c b, l = a ++ EClose c :: b -> forall n, In (EAct c n) b -> In n v.
Lemma cov_cons : forall e l v, (forall c, e <> EClose c) -> cov l v -> cov (e :: l) v.
Proof. intros e l v N C a c b E n H. destruct a as [|x a]; [injection E as E _; destruct (N c E)|]. injection E as _ E. eapply C; eauto. Qed.
Lemma cov_app : forall l v w, cov l v -> cov l (v ++ w).
Proof. intros l v w C a c b E n H. apply in_or_app. left. eapply C; eauto. Qed.
Lemma cov_appr : forall l v w, cov l w -> cov l (v ++ w).
Proof. intros l v w C a c b E n H. apply in_or_app. right. eapply C; eauto. Qed.
Lemma cov_add : forall l v x, cov l v -> cov l (x :: v).
Proof. intros l v x C a c b E n H. right. eapply C; eauto. Qed.
Lemma synced_cons : forall sel e l, (forall t v w, e <> EClosed t v w) -> synced sel l -> synced sel (e :: l).
Proof. intros sel e l N S a t v w b E. destruct a as [|x a]; [injection E as E _; destruct (N _ _ _ E)|]. injection E as _ E. exact (S a t v w b E). Qed.
Lemma synced_closed : forall sel t v w l, synced sel l -> (sel w = true -> cov l v) -> synced sel (EClosed t v w :: l).
Proof. intros sel t v w l S C a t0 v0 w0 b E Hs. destruct a as [|x a]; [injection E as <- <- <- <-; exact (C Hs)|]. injection E as _ E. exact (S a _ _ _ b E Hs). Qed.

(** ** buffered_channel *)
Record binv (s : bst) : Prop := {
  b_act : forall t n, In (EAct t n) (blog s) -> In n (tview s t);
  b_cov : bclosed s = true -> cov (blog s) (bview s);
  b_no : bclosed s = false -> forall c, ~ In (EClose c) (blog s);
  b_syn : synced (fun _ => true) (blog s)
}.
Lemma binv_reach : forall s, reachable bstep binit s -> binv s.
Proof.
  apply (reachable_inv bstep binv binit).
  - split; simpl; auto; try tauto; try discriminate. intros a t v w b E. destruct a; discriminate.
  - intros s l s' [A C N S] H. destruct l as [t|t|t]; injection H as <-.
    + split; cbn [bclosed bview tview bnext blog].
      * intros u n [E|E]; [injection E as <- <-; rewrite upd_same; simpl; auto|]. destruct (Nat.eq_dec u t) as [->|X]; [rewrite upd_same; simpl; auto|rewrite upd_other; auto].
      * intros E. apply cov_cons; [discriminate|auto].
      * intros E c [X|X]; [discriminate|eapply N; eauto].
      * apply synced_cons; auto. discriminate.
    + split; cbn [bclosed bview tview bnext blog].
      * intros u n E. assert (E2 : In (EAct u n) (blog s)) by (destruct (bclosed s); auto; destruct E; [discriminate|auto]). destruct (Nat.eq_dec u t) as [->|X]; [rewrite upd_same; apply in_or_app; auto|rewrite upd_other; auto].
      * intros E. rewrite E. apply cov_cons; [discriminate|]. apply cov_appr. auto.
      * intros E c. rewrite E. auto.
      * destruct (bclosed s) eqn:E; auto. apply synced_closed; auto. intros _. apply cov_appr. auto.
    + split; cbn [bclosed bview tview bnext blog]; try discriminate.
      * intros u n E. assert (E2 : In (EAct u n) (blog s)) by (destruct (bclosed s); auto; destruct E; [discriminate|auto]). destruct (Nat.eq_dec u t) as [->|X]; [rewrite upd_same; apply in_or_app; auto|rewrite upd_other; auto].
      * intros _. destruct (bclosed s) eqn:E; [apply cov_appr; auto|]. intros a c b X n Y. destruct a as [|x a].
        -- injection X as <- <-. apply in_or_app. auto.
        -- injection X as _ X. exfalso. apply (N eq_refl c). rewrite X. apply in_or_app. simpl. auto.
      * destruct (bclosed s); auto. apply synced_cons; auto. discriminate.
Qed.
(** C124 holds for buffered_channel. *)
Theorem C124_buffered_partial : forall s, reachable bstep binit s -> synced (fun _ => true) (blog s).
Proof. intros s R. apply binv_reach. auto. Qed.
Print Assumptions C124_buffered_partial.
Example C124_case_buffered : exists s, reachable bstep binit s /\ blog s = [EClosed 1 [1; 0] false; EClose 0; EAct 1 1; EAct 0 0].
Proof. apply (reach_by bstep binit [BAct 0; BAct 1; BClose 0; BOp 1]). vm_compute. auto. Qed.

(** ** unbuffered_channel: operations that close() has woken *)
Definition knows (p : pc_t) : bool := match p with ClS | ClP | ClC | ClU | Woken true | WokenC | LkC true => true | _ => false end.
Definition known (s : st) (v : list nat) : Prop := cov (log s) v /\ exists x, flag s = Some x /\ In x v.
Record inv (s : st) : Prop := {
  i_act : forall t n, In (EAct t n) (log s) -> In n (view s t);
  i_kn : forall t, knows (pc s t) = true -> known s (view s t);
  i_no : flag s = None -> forall c, ~ In (EClose c) (log s);
  i_syn : synced (fun w => w) (log s)
}.
Lemma known_app : forall s v w, known s v -> known s (v ++ w).
Proof. intros s v w (C & x & F & X). split; [apply cov_app; auto|]. exists x. split; auto. apply in_or_app. auto. Qed.
Lemma known_appr : forall s v w, known s w -> known s (v ++ w).
Proof. intros s v w (C & x & F & X). split; [apply cov_appr; auto|]. exists x. split; auto. apply in_or_app. auto. Qed.
(** A step that adds at most events other than EClose, and only extends the views. *)
Lemma inv_frame : forall s s', inv s ->
  flag s' = flag s ->
  (log s' = log s \/ exists e, log s' = e :: log s /\ (forall c, e <> EClose c) /\ (forall t n, e = EAct t n -> In n (view s' t)) /\ (forall t v, e = EClosed t v true -> known s v)) ->
  (forall t, exists w, view s' t = w ++ view s t \/ view s' t = view s t ++ w) ->
  (forall t, knows (pc s' t) = true -> known s (view s' t)) ->
  inv s'.
Proof.
  intros s s' [A C N S] F L V K.
  assert (VI : forall t n, In n (view s t) -> In n (view s' t)) by (intros t n X; destruct (V t) as [w [Y|Y]]; rewrite Y; apply in_or_app; auto).
  assert (KN : forall v, known s v -> known s' v).
  { intros v (H & x & G1 & G2). split.
    - destruct L as [L|(e & L & L1 & _)]; rewrite L; auto. apply cov_cons; auto.
    - exists x. rewrite F. auto. }
  split.
  - intros t n X. destruct L as [L|(e & L & _ & L2 & _)]; rewrite L in X; auto. destruct X as [X|X]; auto.
  - intros t X. apply KN. auto.
  - intros X c Y. rewrite F in X. destruct L as [L|(e & L & L1 & _)]; rewrite L in Y; [eapply N; eauto|]. destruct Y as [Y|Y]; [exact (L1 c Y)|eapply N; eauto].
  - destruct L as [L|(e & L & L1 & L2 & L3)]; rewrite L; auto. destruct e as [t n|c|t v w].
    + apply synced_cons; auto. discriminate.
    + destruct (L1 c eq_refl).
    + apply synced_closed; auto. intros ->. apply (L3 t v eq_refl).
Qed.
Lemma inv_reach : forall s, reachable step init_state s -> inv s.
Proof.
  apply (reachable_inv step inv init_state).
  - split; simpl; auto; try tauto; try discriminate. intros a t v w b E. destruct a; discriminate.
  - intros s l s' J H. assert (K := i_kn s J).
    assert (NIL : forall v : list nat, exists w, v = w ++ v \/ v = v ++ w) by (intros v; exists []; auto).
    destruct l as [t|t b|t|t u|t p|t b r|t|t u|t]; unfold step in H.
    + destruct (pc s t) eqn:P; try discriminate. injection H as <-. apply (inv_frame s); auto; cbn [flag view pc log].
      * right. eexists. splits; eauto; try discriminate. intros u n E. injection E as <- <-. rewrite upd_same. simpl. auto.
      * intros u. destruct (Nat.eq_dec u t) as [->|X]; [rewrite upd_same; exists [next s]; auto|rewrite upd_other; auto].
      * intros u E. destruct (Nat.eq_dec u t) as [->|X]; [rewrite P in E; discriminate|]. rewrite upd_other by auto. auto.
    + destruct (may_read s t b) eqn:M; [|discriminate]. assert (Pt : exists w, knows (pc s t) = w /\ s' = if b then mkSt (flag s) (cview s) (pl s) (cl s) (pview s) (cview2 s) (upd (seen s) t true) (upd (view s) t (view s t ++ cview s)) (upd (pc s) t Idle) (next s) (EClosed t (view s t ++ cview s) w :: log s) else mkSt (flag s) (cview s) (pl s) (cl s) (pview s) (cview2 s) (seen s) (view s) (upd (pc s) t Idle) (next s) (log s)).
      { destruct (pc s t) as [| | | | | |w| | | |w|] eqn:P; try discriminate; [exists false|exists w]; (split; [try (destruct w); reflexivity|]); destruct b; congruence. }
      destruct Pt as (w & W & ->). clear H. assert (Q : forall u, knows (upd (pc s) t Idle u) = true -> u <> t /\ knows (pc s u) = true) by (intros u E; destruct (Nat.eq_dec u t) as [->|X]; [rewrite upd_same in E; discriminate|rewrite upd_other in E by auto; auto]).
      destruct b; apply (inv_frame s); auto; cbn [flag view pc log].
      * right. eexists. splits; eauto; try discriminate. intros t0 v E. injection E as <- <- ->. apply known_app. auto.
      * intros u. destruct (Nat.eq_dec u t) as [->|X]; [rewrite upd_same; eauto|rewrite upd_other; auto].
      * intros u E. destruct (Q u E). rewrite upd_other; auto.
      * intros u E. destruct (Q u E). auto.
    + destruct (pc s t) eqn:P; try discriminate. destruct (cl s); try discriminate. injection H as <-. apply (inv_frame s); auto; cbn [flag view pc log].
      * intros u. destruct (Nat.eq_dec u t) as [->|X]; [rewrite upd_same; eauto|rewrite upd_other; auto].
      * intros u E. destruct (Nat.eq_dec u t) as [->|X]; [rewrite upd_same in E; discriminate|]. rewrite upd_other in E by auto. rewrite upd_other by auto. auto.
    + destruct (pc s t) eqn:P; try discriminate. destruct (pc s u) eqn:P2; try discriminate. injection H as <-. apply (inv_frame s); auto; cbn [flag view pc log].
      * intros u0. destruct (Nat.eq_dec u0 u) as [->|X]; [rewrite upd_same; eauto|rewrite upd_other; auto].
      * intros u0 E. destruct (Nat.eq_dec u0 u) as [->|X]; [rewrite upd_same in E; discriminate|]. rewrite upd_other in E by auto. rewrite upd_other by auto. auto.
    + assert (Pt : exists q v, s' = mkSt (flag s) (cview s) (if p then Some t else pl s) (if p then cl s else Some t) (pview s) (cview2 s) (seen s) (upd (view s) t (view s t ++ v)) (upd (pc s) t q) (next s) (log s) /\ (knows q = true -> knows (pc s t) = true)).
      { destruct p, (pc s t) eqn:P; try discriminate; [destruct (pl s); [discriminate|]|destruct (cl s); [discriminate|]|destruct (cl s); [discriminate|]]; injection H as <-; eexists; eexists; (split; [reflexivity|]); auto. }
      destruct Pt as (q & v & -> & Q). apply (inv_frame s); auto; cbn [flag view pc log].
      * intros u. destruct (Nat.eq_dec u t) as [->|X]; [rewrite upd_same; eauto|rewrite upd_other; auto].
      * intros u E. destruct (Nat.eq_dec u t) as [->|X]; [rewrite upd_same in E; rewrite upd_same; apply known_app; auto|]. rewrite upd_other in E by auto. rewrite upd_other by auto. auto.
    + destruct (may_read s t b) eqn:M; [|discriminate].
      assert (Pt : exists q w, pc s' = upd (pc s) t q /\ knows q = false /\ flag s' = flag s /\ view s' = upd (view s) t (if b then view s t ++ cview s else view s t) /\ log s' = (if b then EClosed t (view s t ++ cview s) w :: log s else log s) /\ (w = true -> knows (pc s t) = true)).
      { destruct (pc s t) as [| | | | | |w| | | |w|] eqn:P; try discriminate; injection H as <-; [exists (if b then Idle else if r then Idle else Wp), false|exists (if b then Idle else if r then Idle else Wc), w]; cbn [flag view pc log]; splits; auto; try (destruct b, r; reflexivity); try (intros ->; reflexivity); destruct b; reflexivity. }
      destruct Pt as (q & w & E1 & E2 & E3 & E4 & E5 & E6). apply (inv_frame s); auto.
      * rewrite E5. destruct b; auto. right. eexists. splits; eauto; try discriminate. intros t0 v E. injection E as <- <- ->. apply known_app. auto.
      * rewrite E4. intros u. destruct (Nat.eq_dec u t) as [->|X]; [rewrite upd_same; destruct b; eauto|rewrite upd_other; auto].
      * rewrite E1, E4. intros u E. destruct (Nat.eq_dec u t) as [->|X]; [rewrite upd_same in E; congruence|]. rewrite upd_other in E by auto. rewrite upd_other by auto. auto.
    + destruct (pc s t) eqn:P; try discriminate. destruct (flag s) as [x|] eqn:F; injection H as <-.
      * apply (inv_frame s); auto; cbn [flag view pc log].
        -- intros u. destruct (Nat.eq_dec u t) as [->|X]; [rewrite upd_same; eauto|rewrite upd_other; auto].
        -- intros u E. destruct (Nat.eq_dec u t) as [->|X]; [rewrite P in E; discriminate|]. rewrite upd_other by auto. auto.
      * destruct J as [A C N S]. split; cbn [flag view pc log]; try discriminate.
        -- intros u n [E|E]; [discriminate|]. destruct (Nat.eq_dec u t) as [->|X]; [rewrite upd_same; simpl; auto|rewrite upd_other; auto].
        -- intros u E. destruct (Nat.eq_dec u t) as [->|X].
           ++ rewrite upd_same. split; cbn [flag view pc log]; [|exists (next s); simpl; auto]. intros a c b Y n Z. destruct a as [|y a]; [injection Y as <- <-; right; auto|]. injection Y as _ Y. exfalso. apply (N F c). rewrite Y. apply in_or_app. simpl. auto.
           ++ rewrite upd_other in E by auto. destruct (K u E) as (_ & x & F2 & _). congruence.
        -- apply synced_cons; auto. discriminate.
    + destruct (pc s t) eqn:P; try discriminate. destruct (pc s u) eqn:P2; try discriminate. injection H as <-. assert (KT : known s (view s t)) by (apply K; rewrite P; auto). apply (inv_frame s); auto; cbn [flag view pc log].
      * intros u0. destruct (Nat.eq_dec u0 u) as [->|X]; [rewrite upd_same; eauto|rewrite upd_other; auto].
      * intros u0 E. destruct (Nat.eq_dec u0 u) as [->|X]; [rewrite upd_same; apply known_appr; auto|]. rewrite (upd_other (view s)) by auto. destruct (Nat.eq_dec u0 t) as [->|Y]; auto. rewrite !upd_other in E by auto. auto.
    + assert (WV : forall w u, exists y, wake_view s w t u = y ++ view s u \/ wake_view s w t u = view s u ++ y) by (intros w u; unfold wake_view; destruct (woken s w u); eauto).
      assert (WK : forall w u, knows (pc s t) = true -> knows (wake_pc s w u) = true -> known s (wake_view s w t u)).
      { intros w u KT E. unfold wake_view, wake_pc in *. destruct (woken s w u); [apply known_appr|]; auto. }
      assert (KT : knows (pc s t) = true) by (destruct (pc s t); try discriminate; auto).
      assert (KT2 := K t KT).
      destruct (pc s t) eqn:P; try discriminate; [|destruct (pl s); [discriminate|]|destruct (cl s); [discriminate|]|]; injection H as <-; apply (inv_frame s); auto; cbn [flag view pc log].
      * intros u E. destruct (Nat.eq_dec u t) as [->|X]; auto. rewrite upd_other in E by auto. auto.
      * intros u. destruct (Nat.eq_dec u t) as [->|X]; [rewrite upd_same; eauto|rewrite upd_other; auto].
      * intros u E. destruct (Nat.eq_dec u t) as [->|X]; [rewrite upd_same; apply known_app; auto|]. rewrite upd_other in E by auto. rewrite upd_other by auto. auto.
      * intros u. destruct (Nat.eq_dec u t) as [->|X]; [rewrite upd_same; eauto|rewrite upd_other; auto].
      * intros u E. destruct (Nat.eq_dec u t) as [->|X]; [rewrite upd_same; apply known_app; auto|]. rewrite upd_other in E by auto. rewrite upd_other by auto. auto.
      * intros u E. destruct (Nat.eq_dec u t) as [->|X]; auto. rewrite upd_other in E by auto. auto.
Qed.
(** What holds of C124 for unbuffered_channel: it holds for the operations that were waiting and that close() has woken. *)
Theorem C124_partial : forall s, reachable step init_state s -> synced (fun w => w) (log s).
Proof. intros s R. apply inv_reach. auto. Qed.
Print Assumptions C124_partial.
Example C124_case : exists s, reachable step init_state s /\ (exists v w, log s = [EClosed 2 v true; EClosed 1 w true; EClose 0; EAct 0 0] /\ In 0 v /\ In 0 w) /\ pc s 0 = Idle.
Proof. apply (reach_by step init_state [Act 0; Lock 1 false; Test 1 false false; Lock 2 true; Test 2 false false; Close 0; Run 0; Run 0; Run 0; Run 0; Lock 1 false; Test 1 true false; Top 2 true]). vm_compute. split; [eexists; eexists; split; [reflexivity|]; split; simpl; auto 9|reflexivity]. Qed.

(** ** C125: nobody remains in the wait queues *)
(** Thread t is executing close(). *)
Definition in_close (s : st) (t : nat) : Prop := match pc s t with ClS | ClP | ClC | ClU => True | _ => False end.
(** t waits in one of the wait queues. *)
Definition queued (s : st) (t : nat) : Prop := pc s t = Wp \/ pc s t = Wc.

Definition early (p : pc_t) : bool := match p with ClS | ClP => true | _ => false end.
Definition early2 (p : pc_t) : bool := match p with ClS | ClP | ClC => true | _ => false end.
Definition hasp (p : pc_t) : bool := match p with LkP | ClC | ClU => true | _ => false end.
Definition hasc (p : pc_t) : bool := match p with LkC _ | ClU => true | _ => false end.
Definition latep (p : pc_t) : bool := match p with ClC | ClU => true | _ => false end.
Record inv2 (s : st) : Prop := {
  j_p : forall t, hasp (pc s t) = true -> pl s = Some t;
  j_c : forall t, hasc (pc s t) = true -> cl s = Some t;
  j_P : forall x, flag s = Some x -> (forall t, early (pc s t) = false) -> (forall u, pc s u <> Wp) /\ ((exists t, latep (pc s t) = true) \/ (In x (pview s) /\ forall u, pc s u = LkP -> In x (view s u)));
  j_C : forall x, flag s = Some x -> (forall t, early2 (pc s t) = false) -> (forall u, pc s u <> Wc) /\ ((exists t, pc s t = ClU) \/ (In x (cview2 s) /\ forall u w, pc s u = LkC w -> In x (view s u)))
}.
Definition plain (p : pc_t) : bool := match p with Idle | Ws | Woken _ | WokenC => true | _ => false end.
Lemma inv2_frame : forall s s', inv2 s -> flag s' = flag s -> pl s' = pl s -> cl s' = cl s ->
  (forall x, In x (pview s) -> In x (pview s')) -> (forall x, In x (cview2 s) -> In x (cview2 s')) -> (forall u x, In x (view s u) -> In x (view s' u)) ->
  (forall u, pc s' u = pc s u \/ (plain (pc s u) = true /\ plain (pc s' u) = true)) -> inv2 s'.
Proof.
  intros s s' [JP JC JPP JCC] F P C PV CV V B.
  assert (Q : forall f : pc_t -> bool, (forall p, plain p = true -> f p = false) -> forall u, f (pc s' u) = f (pc s u)) by (intros f Hf u; destruct (B u) as [E|[E1 E2]]; [rewrite E; auto|rewrite !Hf; auto]).
  assert (Qh : forall u, hasp (pc s' u) = hasp (pc s u)) by (apply Q; intros []; simpl; congruence).
  assert (Qc : forall u, hasc (pc s' u) = hasc (pc s u)) by (apply Q; intros []; simpl; congruence).
  assert (Qe : forall u, early (pc s' u) = early (pc s u)) by (apply Q; intros []; simpl; congruence).
  assert (Qe2 : forall u, early2 (pc s' u) = early2 (pc s u)) by (apply Q; intros []; simpl; congruence).
  assert (E : forall u p, plain p = false -> pc s' u = p -> pc s u = p) by (intros u p N X; destruct (B u) as [E|[E1 E2]]; congruence).
  assert (E' : forall u p, plain p = false -> pc s u = p -> pc s' u = p) by (intros u p N X; destruct (B u) as [Y|[E1 E2]]; congruence).
  split.
  - intros t. rewrite Qh, P. auto.
  - intros t. rewrite Qc, C. auto.
  - intros x X H. rewrite F in X. destruct (JPP x X) as [A D]; [intros t; rewrite <- Qe; auto|]. split.
    + intros u Y. apply E in Y; auto. exact (A u Y).
    + destruct D as [[t D]|[D1 D2]]; [left; exists t|right; split; auto].
      assert (Z : pc s' t = pc s t) by (destruct (pc s t) eqn:Y; try discriminate; apply E'; auto). rewrite Z. auto.
  - intros x X H. rewrite F in X. destruct (JCC x X) as [A D]; [intros t; rewrite <- Qe2; auto|]. split.
    + intros u Y. apply E in Y; auto. exact (A u Y).
    + destruct D as [[t D]|[D1 D2]]; [left; exists t; auto|right; split; auto].
      intros u w Y. apply V, (D2 u w). apply E; auto.
Qed.
Ltac us t := repeat match goal with H : context [upd _ t _ t] |- _ => rewrite upd_same in H | |- context [upd _ t _ t] => rewrite upd_same end.
Ltac uo u t := repeat match goal with H : context [upd _ t _ u] |- _ => rewrite upd_other in H by auto | |- context [upd _ t _ u] => rewrite upd_other by auto end.
Ltac ud u t := destruct (Nat.eq_dec u t) as [->|?X]; [us t|uo u t].
Lemma inv2_step : forall s l s', inv s -> inv2 s -> step s l = Some s' -> inv2 s'.
Proof.
  intros s l s' I0 J H. destruct l as [t|t b|t|t u|t p|t b r|t|t u|t]; unfold step in H.
  - destruct (pc s t) eqn:P; try discriminate. injection H as <-. apply (inv2_frame s); auto; cbn [flag view pc log pview cview2]; auto.
    intros u x Y. ud u t; simpl; auto.
  - destruct (may_read s t b); [|discriminate]. assert (PL : plain (pc s t) = true) by (destruct (pc s t); auto; discriminate).
    assert (B : forall u, upd (pc s) t Idle u = pc s u \/ (plain (pc s u) = true /\ plain (upd (pc s) t Idle u) = true)) by (intros u; ud u t; auto).
    assert (V : forall u x, In x (view s u) -> In x (upd (view s) t (view s t ++ cview s) u)) by (intros u x Y; ud u t; auto; apply in_or_app; auto).
    destruct (pc s t) eqn:P; try discriminate; destruct b; injection H as <-; apply (inv2_frame s); auto.
  - destruct (pc s t) eqn:P; try discriminate. destruct (cl s) eqn:C; try discriminate. injection H as <-. apply (inv2_frame s); auto; cbn [flag view pc log pview cview2].
    + intros x Y. apply in_or_app; auto.
    + intros u x Y. ud u t; auto. apply in_or_app; auto.
    + intros u. ud u t; auto. rewrite P. auto.
  - destruct (pc s t) eqn:P; try discriminate. destruct (pc s u) eqn:P2; try discriminate. injection H as <-. apply (inv2_frame s); auto; cbn [flag view pc log pview cview2].
    + intros u0 x Y. ud u0 u; auto. apply in_or_app; auto.
    + intros u0. ud u0 u; auto. rewrite P2. auto.
  - destruct J as [JP JC JPP JCC]. destruct p.
    + destruct (pc s t) eqn:P; try discriminate. destruct (pl s) eqn:L; [discriminate|]. injection H as <-. split; cbn [flag view pc log pview cview2 pl cl].
      * intros u E. ud u t; auto. specialize (JP u E). congruence.
      * intros u E. ud u t; [discriminate|auto].
      * intros x X E. destruct (JPP x X) as [A D]; [intros u; specialize (E u); ud u t; auto; rewrite P; auto|]. split.
        -- intros u. ud u t; [discriminate|auto].
        -- destruct D as [[u D]|[D1 D2]].
           ++ assert (hasp (pc s u) = true) by (destruct (pc s u); auto; discriminate). specialize (JP u H). discriminate.
           ++ right. split; auto. intros u Y. ud u t; auto. apply in_or_app. auto.
      * intros x X E. destruct (JCC x X) as [A D]; [intros u; specialize (E u); ud u t; auto; rewrite P; auto|]. split.
        -- intros u. ud u t; [discriminate|auto].
        -- destruct D as [[u D]|[D1 D2]].
           ++ left. exists u. ud u t; [congruence|auto].
           ++ right. split; auto. intros u w Y. ud u t; [discriminate|eauto].
    + assert (Pt : exists q w, q = LkC w /\ plain (pc s t) = true /\ cl s = None /\ s' = mkSt (flag s) (cview s) (pl s) (Some t) (pview s) (cview2 s) (seen s) (upd (view s) t (view s t ++ cview2 s)) (upd (pc s) t q) (next s) (log s)).
      { destruct (pc s t) eqn:P; try discriminate; destruct (cl s) eqn:L; try discriminate; injection H as <-; eexists; eexists; splits; eauto. }
      destruct Pt as (q & w & Eq & P & L & ->). clear H. split; cbn [flag view pc log pview cview2 pl cl].
      * intros u E. ud u t; [subst q; discriminate|auto].
      * intros u E. ud u t; auto. rewrite (JC u E) in L. discriminate.
      * intros x X E. destruct (JPP x X) as [A D]; [intros u; specialize (E u); ud u t; auto; destruct (pc s t); auto; discriminate|]. split.
        -- intros u. ud u t; [subst q; discriminate|auto].
        -- destruct D as [[u D]|[D1 D2]].
           ++ left. exists u. ud u t; [destruct (pc s t); discriminate|auto].
           ++ right. split; auto. intros u Y. ud u t; [congruence|auto].
      * intros x X E. destruct (JCC x X) as [A D]; [intros u; specialize (E u); ud u t; auto; destruct (pc s t); auto; discriminate|]. split.
        -- intros u. ud u t; [subst q; discriminate|auto].
        -- destruct D as [[u D]|[D1 D2]].
           ++ assert (H : hasc (pc s u) = true) by (rewrite D; auto). specialize (JC u H). congruence.
           ++ right. split; auto. intros u w0 Y. ud u t; [apply in_or_app; auto|eauto].
  - destruct J as [JP JC JPP JCC]. destruct (may_read s t b) eqn:M; [|discriminate].
    assert (MR : forall x, flag s = Some x -> In x (view s t) -> b = true).
    { intros x F X. unfold may_read in M. rewrite F in M. destruct b; auto. simpl in M. apply negb_true_iff, orb_false_iff in M. destruct M as [_ M]. exfalso. assert (Y : existsb (Nat.eqb x) (view s t) = true) by (apply existsb_exists; exists x; split; auto; apply Nat.eqb_refl). congruence. }
    set (v := if b then view s t ++ cview s else view s t) in *. assert (Hv : forall x, In x (view s t) -> In x v) by (intros x X; unfold v; destruct b; auto; apply in_or_app; auto).
    destruct (pc s t) as [| | | | | |w| | | |w|] eqn:P; try discriminate; injection H as <-; split; cbn [flag view pc log pview cview2 pl cl].
    + intros u E. ud u t; [destruct b, r; discriminate|]. assert (A := JP u E). assert (B : pl s = Some t) by (apply JP; rewrite P; auto). congruence.
    + intros u E. ud u t; [destruct b, r; discriminate|auto].
    + intros x X E. destruct (JPP x X) as [A D]; [intros u; specialize (E u); ud u t; auto; rewrite P; auto|]. destruct D as [[u D]|[D1 D2]].
      * assert (B : pl s = Some t) by (apply JP; rewrite P; auto). assert (C : pl s = Some u) by (apply JP; destruct (pc s u); auto; discriminate). assert (u = t) by congruence. subst u. rewrite P in D. discriminate.
      * rewrite (MR x X (D2 t P)). split; [intros u; ud u t; [discriminate|auto]|]. right. split; auto. intros u Y. ud u t; [discriminate|auto].
    + intros x X E. destruct (JCC x X) as [A D]; [intros u; specialize (E u); ud u t; auto; rewrite P; auto|]. split; [intros u; ud u t; [destruct b, r; discriminate|auto]|].
      destruct D as [[u D]|[D1 D2]]; [left; exists u; ud u t; [congruence|auto]|right; split; auto]. intros u w Y. ud u t; [destruct b, r; discriminate|eauto].
    + intros u E. ud u t; [destruct b, r; discriminate|auto].
    + intros u E. ud u t; [destruct b, r; discriminate|]. assert (A := JC u E). assert (B : cl s = Some t) by (apply JC; rewrite P; auto). congruence.
    + intros x X E. destruct (JPP x X) as [A D]; [intros u; specialize (E u); ud u t; auto; rewrite P; auto|]. split; [intros u; ud u t; [destruct b, r; discriminate|auto]|].
      destruct D as [[u D]|[D1 D2]]; [left; exists u; ud u t; [rewrite P in D; discriminate|auto]|right; split; auto]. intros u Y. ud u t; [destruct b, r; discriminate|eauto].
    + intros x X E. destruct (JCC x X) as [A D]; [intros u; specialize (E u); ud u t; auto; rewrite P; auto|]. destruct D as [[u D]|[D1 D2]].
      * assert (B : cl s = Some t) by (apply JC; rewrite P; auto). assert (C : cl s = Some u) by (apply JC; rewrite D; auto). congruence.
      * rewrite (MR x X (D2 t w P)). split; [intros u; ud u t; [discriminate|auto]|]. right. split; [apply Hv; exact (D2 t w P)|]. intros u w0 Y. ud u t; [discriminate|]. exact (D2 u w0 Y).
  - destruct (pc s t) eqn:P; try discriminate. destruct (flag s) as [x|] eqn:F; injection H as <-.
    + apply (inv2_frame s); auto; cbn [flag view pc log pview cview2]; auto. intros u y Y. ud u t; auto. apply in_or_app; auto.
    + destruct J as [JP JC JPP JCC]. split; cbn [flag view pc log pview cview2 pl cl].
      * intros u E. ud u t; [discriminate|auto].
      * intros u E. ud u t; [discriminate|auto].
      * intros x X E. specialize (E t). rewrite upd_same in E. discriminate.
      * intros x X E. specialize (E t). rewrite upd_same in E. discriminate.
  - destruct (pc s t) eqn:P; try discriminate. destruct (pc s u) eqn:P2; try discriminate. injection H as <-. destruct J as [JP JC JPP JCC]. split; cbn [flag view pc log pview cview2 pl cl].
    + intros u0 E. ud u0 t; [discriminate|]. ud u0 u; [discriminate|auto].
    + intros u0 E. ud u0 t; [discriminate|]. ud u0 u; [discriminate|auto].
    + intros x X E. specialize (E t). rewrite upd_same in E. discriminate.
    + intros x X E. specialize (E t). rewrite upd_same in E. discriminate.
  - destruct J as [JP JC JPP JCC]. destruct (pc s t) eqn:P; try discriminate; [|destruct (pl s) eqn:L; [discriminate|]|destruct (cl s) eqn:L; [discriminate|]|]; injection H as <-; split; cbn [flag view pc log pview cview2 pl cl].
    + intros u E. ud u t; [discriminate|auto].
    + intros u E. ud u t; [discriminate|auto].
    + intros x X E. specialize (E t). rewrite upd_same in E. discriminate.
    + intros x X E. specialize (E t). rewrite upd_same in E. discriminate.
    + intros u E. ud u t; auto. assert (Y : hasp (pc s u) = true) by (revert E; unfold wake_pc, woken; destruct (pc s u); auto). specialize (JP u Y). discriminate.
    + intros u E. ud u t; [discriminate|]. apply JC. revert E; unfold wake_pc, woken; destruct (pc s u); auto.
    + intros x X E. split.
      * intros u. ud u t; [discriminate|]. unfold wake_pc, woken. destruct (pc s u); discriminate.
      * left. exists t. rewrite upd_same. auto.
    + intros x X E. specialize (E t). rewrite upd_same in E. discriminate.
    + intros u E. ud u t; [apply JP; rewrite P; auto|]. apply JP. revert E; unfold wake_pc, woken; destruct (pc s u); auto.
    + intros u E. ud u t; auto. assert (Y : hasc (pc s u) = true) by (revert E; unfold wake_pc, woken; destruct (pc s u); auto). specialize (JC u Y). discriminate.
    + intros x X E. split.
      * destruct (JPP x X) as [A _]; [|intros u; ud u t; [discriminate|]; specialize (A u); unfold wake_pc, woken; destruct (pc s u); congruence].
        intros u. specialize (E u). ud u t; [rewrite P; auto|]. revert E. unfold wake_pc, woken. destruct (pc s u); auto.
      * left. exists t. rewrite upd_same. auto.
    + intros x X E. split.
      * intros u. ud u t; [discriminate|]. unfold wake_pc, woken. destruct (pc s u); discriminate.
      * left. exists t. rewrite upd_same. auto.
    + intros u E. ud u t; [discriminate|]. assert (A := JP u E). assert (B : pl s = Some t) by (apply JP; rewrite P; auto). congruence.
    + intros u E. ud u t; [discriminate|]. assert (A := JC u E). assert (B : cl s = Some t) by (apply JC; rewrite P; auto). congruence.
    + intros x X E. destruct (JPP x X) as [A D]; [intros u; specialize (E u); ud u t; auto; rewrite P; auto|]. split; [intros u; ud u t; [discriminate|auto]|].
      right. assert (K : knows (pc s t) = true) by (rewrite P; auto). destruct (i_kn s I0 t K) as (_ & y & F & Y). split; [congruence|].
      intros u Z. ud u t; [discriminate|]. assert (B : pl s = Some t) by (apply JP; rewrite P; auto). assert (C : pl s = Some u) by (apply JP; rewrite Z; auto). congruence.
    + intros x X E. destruct (JCC x X) as [A D]; [intros u; specialize (E u); ud u t; auto; rewrite P; auto|]. split; [intros u; ud u t; [discriminate|auto]|].
      right. assert (K : knows (pc s t) = true) by (rewrite P; auto). destruct (i_kn s I0 t K) as (_ & y & F & Y). split; [congruence|].
      intros u w Z. ud u t; [discriminate|]. assert (B : cl s = Some t) by (apply JC; rewrite P; auto). assert (C : cl s = Some u) by (apply JC; rewrite Z; auto). congruence.
Qed.
Lemma inv2_reach : forall s, reachable step init_state s -> inv2 s.
Proof.
  apply (reachable_inv2 step inv2 init_state).
  - split; simpl; discriminate.
  - intros s l s' R J H. eapply inv2_step; eauto. apply inv_reach. auto.
Qed.
(** C125: although closed_ is stored without release and may be read late, after close() nobody waits in the wait queues of the channel. *)
Theorem C125_nobody_queued : forall s, reachable step init_state s -> (exists c, In (EClose c) (log s)) -> (forall t, ~ in_close s t) -> forall u, ~ queued s u.
Proof.
  intros s R [c C] NC u Q. assert (J := inv2_reach s R). assert (F : exists x, flag s = Some x) by (destruct (flag s) eqn:F; eauto; destruct (i_no s (inv_reach s R) F c C)). destruct F as [x F].
  destruct (j_P s J x F) as [A _]; [intros t; specialize (NC t); unfold in_close in NC; destruct (pc s t); simpl; tauto|].
  destruct (j_C s J x F) as [B _]; [intros t; specialize (NC t); unfold in_close in NC; destruct (pc s t); simpl; tauto|].
  destruct Q as [Q|Q]; [exact (A u Q)|exact (B u Q)].
Qed.
Print Assumptions C125_nobody_queued.
(** An operation that close() has woken cannot read the old value and wait again. *)
Theorem C125_woken_reads_true : forall s t, reachable step init_state s -> pc s t = Woken true \/ pc s t = LkC true -> may_read s t false = false.
Proof.
  intros s t R P. assert (K : knows (pc s t) = true) by (destruct P as [P|P]; rewrite P; auto). destruct (i_kn s (inv_reach s R) t K) as (_ & x & F & X). unfold may_read. rewrite F. simpl.
  assert (Y : existsb (Nat.eqb x) (view s t) = true) by (apply existsb_exists; exists x; split; auto; apply Nat.eqb_refl). rewrite Y, orb_true_r. auto.
Qed.
Print Assumptions C125_woken_reads_true.
(** Thread 1 still reads the old value after close() when it takes no spinlock, but it cannot wait: under the spinlock it sees the new value. *)
Example C125_case : exists s, reachable step init_state s /\ (exists c, In (EClose c) (log s)) /\ pc s 0 = Idle /\ pc s 2 = WokenC /\ may_read s 1 false = true /\ step s (Top 1 false) <> None.
Proof. apply (reach_by step init_state [Lock 2 false; Test 2 false false; Close 0; Run 0; Run 0; Run 0; Run 0]). vm_compute. splits; auto; [exists 0; auto|discriminate]. Qed.
