(** Theorems about the unbuffered channel with throwing moves: C87, C88. *)
From Coq Require Import List Arith Bool Lia.
From Verif Require Import Base Kernel KernelFacts WakeFacts SlotFacts Unbuffered UnbufferedSpec UnbufferedProofs UnbufferedProofs2 UnbufferedProofs3 UnbufferedProofs4 UnbufferedProofs5 UnbufferedProofs6 UnbufferedProofs7 UnbufferedProofs8 UnbufferedProofs9 UnbufferedProofs10 UnbufferedProofs12 UnbufferedProps UnbufThrow.
Import ListNotations.

Section Proofs.
Context {V : Type}.
Notation state := (state V). Notation pc := (pc V). Notation op := (op V). Notation event := (event V).

Lemma xstep_cases (s : xstate V) l s' : xstep s l = Some s' ->
  (exists l0, l = XL l0 /\ step (xs s) l0 = Some (xs s') /\ thrown s' = thrown s) \/
  (exists f o p r, l = XThrow f /\ pcs (xs s) f = CRead o p /\ running (fib (kn (xs s)) f) = true /\ deref (xs s) p = Some r /\
     s' = mkX (ret (xs s) f o RExc) (p :: thrown s)).
Proof.
  destruct l as [l|f]; simpl.
  - destruct (step (xs s) l) as [s1|] eqn:E; [|discriminate]. intros H; inversion H; subst. left. exists l. auto.
  - destruct (ub (xs s)); [discriminate|]. destruct (running _) eqn:R; [|discriminate].
    destruct (pcs (xs s) f) eqn:P; try discriminate. destruct (deref (xs s) p) as [r|] eqn:D; [|discriminate].
    intros H; inversion H; subst. right. exists f, o, p, r. auto.
Qed.

(** The throwing pop, seen as a change of the channel. *)
Lemma inv_throw (s : state) f o p r : Inv s -> pcs s f = CRead o p -> deref s p = Some r -> Inv (ret s f o RExc).
Proof.
  intros [I1 I2 I3 I4 I5 I6 I7 I8 I9 I10 I11 I12 I13] P D. unfold ret.
  assert (Nf : frames s f = None).
  { specialize (I6 f). rewrite P in I6. destruct (frames s f); auto. destruct I6; discriminate. }
  constructor; simpl.
  - intros g. upds; auto. exact I.
  - intros g. destruct (Nat.eqb_spec f g); [subst; now rewrite upd_same|]. rewrite upd_other by auto. auto.
  - intros g. destruct (Nat.eq_dec g f) as [->|N]; updt; [rewrite I3, P; simpl; tauto|apply I3].
  - intros g. destruct (Nat.eq_dec g f) as [->|N]; updt; [rewrite I4, P; simpl; tauto|apply I4].
  - auto.
  - intros g. simpl. specialize (I6 g). destruct (Nat.eq_dec g f) as [->|N]; updt; auto.
  - unfold KI in *. simpl. apply KI_same; auto. now rewrite P.
  - intros g r0. simpl. specialize (I8 g r0). destruct (Nat.eq_dec g f) as [->|N]; updt; auto. discriminate.
  - intros g n H. destruct (I9 g n) as [A B].
    { simpl in H. destruct H as [H|[H|(c & H)]]; auto. right; right. exists c. revert H. upds; auto. intros [H|H]; discriminate H. }
    split; auto. intros E. specialize (B E). simpl. destruct (Nat.eq_dec g f) as [->|N]; updt; auto.
  - destruct I10 as [T1 T2 T3 T4 T5]. constructor; simpl; auto.
    + intros q E. destruct (T1 q E) as [A B]. split; auto. intros c. upds; auto. discriminate.
    + intros c q. upds; eauto. discriminate.
    + intros c d q. upds; eauto; discriminate.
    + intros c o1 q x. upds; eauto. discriminate.
  - intros g r0. simpl. specialize (I11 g r0). destruct (Nat.eq_dec g f) as [->|N]; updt; [discriminate|]. intros E.
    destruct (I11 E) as (o1 & v & A & B & C & F). exists o1, v. splits; auto. now apply pushed_cons.
  - intros c q x [H|H]; [discriminate|]. destruct (I12 c q x H) as (v & A & B). exists v. split; auto. now apply pushed_cons.
  - intros c. simpl. specialize (I13 c). destruct (Nat.eq_dec c f) as [->|N]; updt; auto. rewrite P in I13. exact I13.
Qed.

Lemma cl_throw (s : state) f o : ClI s -> ClI (ret s f o RExc).
Proof.
  intros [A B C]. constructor; simpl.
  - intros g. upds; [discriminate|apply A].
  - intros H. destruct (B H) as [g X]. exists g. now right.
  - intros (g & t & [X|X]); [discriminate|]. apply C. exists g, t. auto.
Qed.

(** Slots from which a move has thrown are out of the game. *)
Definition ThI (s : xstate V) : Prop := forall f n, In (f, n) (thrown s) ->
  ~ In (f, n) (consumed (log (xs s))) /\ slot (xs s) <> Some (f, n) /\ (forall c, holds (pcs (xs s) c) <> Some (f, n)) /\
  n <= calls (xs s) f /\ (n = calls (xs s) f -> pre (pcs (xs s) f) = false).

Record XAll (s : xstate V) : Prop := {
  x_i : Inv (xs s);
  x_cl : ClI (xs s);
  x_wok : WokI (fun p => In p (thrown s)) (xs s);
  x_log : LogI (xs s);
  x_ai : AI (xs s);
  x_bi : BI (xs s);
  x_th : ThI s
}.

Lemma nocons_step (s : state) l s' p : step s l = Some s' ->
  ~ In p (consumed (log s)) -> slot s <> Some p -> (forall c, holds (pcs s c) <> Some p) ->
  (forall f o r, pcs s f = PTry o -> frames s f = Some r -> p <> (f, call r)) ->
  ~ In p (consumed (log s')) /\ slot s' <> Some p /\ (forall c, holds (pcs s' c) <> Some p).
Proof.
  intros Hs A B C D.
  assert (K : forall f q, holds q <> Some p -> forall c, holds (upd (pcs s) f q c) <> Some p).
  { intros f q Hq c. destruct (Nat.eq_dec c f) as [->|N]; updt; auto. }
  assert (Kf : forall f q, holds q = holds (pcs s f) -> forall c, holds (upd (pcs s) f q c) <> Some p).
  { intros f q Hq. apply K. rewrite Hq. auto. }
  stepcases Hs; splits; auto; try congruence; try discriminate.
  all: try (apply K; simpl; congruence).
  all: try (apply Kf; rewrite Ep; reflexivity).
  - intros E. inversion E; subst. eapply D; eauto.
  - intros [E|E]; auto. apply (C f). rewrite Ep. simpl. congruence.
Qed.

Lemma xall_step (s : xstate V) l s' : XAll s -> xstep s l = Some s' -> XAll s'.
Proof.
  intros [I C W L A B T] Hs. destruct (xstep_cases _ _ _ Hs) as [(l0 & -> & Hs0 & Et)|(f & o & p & r & -> & P & R & D & ->)].
  - constructor; rewrite ?Et; eauto using inv_step, cl_step, wok_step, log_step, ai_step, bi_step.
    intros g n Hin. rewrite Et in Hin. destruct (T g n Hin) as (T1 & T2 & T3 & T4 & T5).
    destruct (nocons_step _ _ _ (g, n) Hs0 T1 T2 T3) as (N1 & N2 & N3).
    { intros f o r P F E. inversion E; subst. pose proof (i_fr _ I f) as Fr. rewrite F in Fr. destruct Fr as (_ & Fr & _).
      specialize (T5 Fr). rewrite P in T5. discriminate T5. }
    splits; auto.
    + destruct (pre_step _ _ _ g Hs0) as [[E1 E2]|E]; lia.
    + intros E. destruct (pre_step _ _ _ g Hs0) as [[E1 E2]|E2]; [|lia]. rewrite E1 in E. specialize (T5 E).
      destruct (pre (pcs (xs s') g)); auto. rewrite E2 in T5; auto.
  - pose proof (inv_throw _ _ _ _ _ I P D) as I'. pose proof (cl_throw _ f o C) as C'.
    assert (Rw : forall g q, pcs (xs s) g = q -> q <> CRead o p -> pcs (ret (xs s) f o RExc) g = q).
    { intros g q E N. simpl. rewrite upd_other; auto. intros ->. congruence. }
    assert (Bk : forall g q, pcs (ret (xs s) f o RExc) g = q -> q <> Idle -> pcs (xs s) g = q /\ g <> f).
    { intros g q. simpl. upds; auto. congruence. }
    constructor; simpl; auto.
    + destruct W as [W1 W2 W3 W4]. constructor.
      * intros g e He Hn. simpl in He, Hn. destruct (Nat.eq_dec g f) as [->|N]; [rewrite upd_same in He; discriminate He|].
        rewrite upd_other in He by auto. destruct (W1 g e He Hn) as [[X1 X2]|[X|(o1 & tp & X & Y)]]; auto.
        -- left. split; auto. intros c. simpl. upds; auto. discriminate.
        -- right; right. exists o1, tp. split; auto. apply Rw; auto. discriminate.
      * intros g o1 Hp. apply Bk in Hp; [|discriminate]. destruct Hp as [Hp N]. destruct (W2 _ _ Hp) as [[X1 X2]|X]; auto.
        left. split; auto. intros c. simpl. upds; auto. discriminate.
      * intros g o1 Hp. apply Bk in Hp; [|discriminate]. destruct Hp as [Hp N]. exact (W3 _ _ Hp).
      * intros g e He Hn. simpl in He, Hn. destruct (Nat.eq_dec g f) as [->|N]; [rewrite upd_same in He; discriminate He|].
        rewrite upd_other in He by auto. destruct (W4 g e He Hn) as [[X|[c X]]|X]; [left; left; exact X| |right; right; exact X].
        destruct (Nat.eq_dec c f) as [->|Nc]; [right; left; rewrite P in X; simpl in X; simpl; congruence|].
        left; right. exists c. simpl. now rewrite upd_other.
    + intros [|e h2] h1 g o1 r1 t E; simpl in E; inversion E; subst.
      * split; auto. now rewrite (i_pend _ I), P.
      * eapply L; eauto.
    + intros [Lv1 Lv2] q g Sl [Bg Qg]. simpl in *.
      destruct (Nat.eq_dec g f) as [->|N]; [rewrite upd_same in Qg; destruct Qg as (e & [Q|(tp & Q)]); discriminate Q|].
      rewrite upd_other in Qg by auto.
      destruct (A ltac:(split; [intros x X; apply (Lv1 x); now right|intros x o1 t X; apply (Lv2 x o1 t); now right]) q g Sl (conj Bg Qg)) as [(o1 & e & X)|(c & X & Y)].
      * left. exists o1, e. rewrite upd_other; auto. intros E. rewrite E in X. congruence.
      * right. exists c. split; auto. rewrite upd_other; auto. intros ->. rewrite P in Y. discriminate Y.
    + intros [Lv1 Lv2] g [Bg Qg] Sl. simpl in *.
      destruct (Nat.eq_dec g f) as [->|N]; [rewrite upd_same in Qg; destruct Qg as (e & [Q|(tp & Q)]); discriminate Q|].
      rewrite upd_other in Qg by auto.
      destruct (B ltac:(split; [intros x X; apply (Lv1 x); now right|intros x o1 t X; apply (Lv2 x o1 t); now right]) g (conj Bg Qg) Sl) as [(c & o1 & q & X)|(c & X & Y)].
      * left. exists c, o1, q. rewrite upd_other; auto. intros ->. congruence.
      * right. exists c. split; auto. rewrite upd_other; auto. intros ->. rewrite P in Y. discriminate Y.
    + intros g n Hin. simpl in *. destruct Hin as [->|Hin].
      * assert (Hf : holds (pcs (xs s) f) = Some (g, n)) by now rewrite P.
        destruct (i_off _ I g n) as [O1 O2]; [right; right; exists f; auto|].
        splits; auto.
        -- apply (t_unread _ (i_tok _ I) f). now rewrite P.
        -- intros E. apply (proj2 (t_slot _ (i_tok _ I) _ E) f Hf).
        -- intros c. upds; [discriminate|]. intros Hc. apply n0. eapply (t_uniq _ (i_tok _ I)); eauto.
        -- intros E. specialize (O2 E). upds; auto.
      * destruct (T g n Hin) as (T1 & T2 & T3 & T4 & T5). splits; auto.
        -- intros c. upds; auto. discriminate.
        -- intros E. specialize (T5 E). upds; auto.
Qed.

Lemma xall_reach (s : xstate V) : reachable xstep xinit s -> XAll s.
Proof.
  apply reachable_inv; [|apply xall_step]. constructor; simpl.
  - apply inv_init.
  - constructor; simpl; try discriminate. intros (f & t & []).
  - constructor; simpl; try discriminate.
  - intros [|e h2] h1 f o r t E; discriminate E.
  - intros _ p g E. discriminate E.
  - intros _ g [[_ B] _]. discriminate B.
  - intros f n [].
Qed.

(** A producer whose slot nobody knows any more. *)
Definition gone (s : xstate V) (f : fid) (o : op) : Prop :=
  Inv (xs s) /\ (exists e, pcs (xs s) f = PSusp o e) /\ xblocked (fib (kn (xs s)) f) /\ ~ named (xs s) (f, calls (xs s) f).

Lemma gone_step (s : xstate V) l s' f o : gone s f o -> xstep s l = Some s' -> gone s' f o.
Proof.
  intros (I & (e & P) & Bl & N) Hs. destruct (xstep_cases _ _ _ Hs) as [(l0 & -> & Hs0 & Et)|(c & o1 & p & r & -> & Pc & R & D & ->)].
  - assert (Nl : l0 <> LRun f).
    { intros ->. unfold step in Hs0. destruct (ub (xs s)); [discriminate Hs0|]. destruct Bl as [Bl _]. rewrite Bl in Hs0. discriminate Hs0. }
    destruct (pub_epoch _ _ _ f e (i_ki _ I) (i_fr _ I) (i_off _ I) Hs0) as (Q1 & Q2 & Q3); auto; [now rewrite P|].
    split; [eauto using inv_step|]. split; [exists e; congruence|]. split.
    + destruct Q3 as [Q|[(kl & -> & Q & _)|[(c & o1 & x & r & -> & Q & _)|(c & r & -> & Q & _)]]].
      * now rewrite Q.
      * pose proof (si_f _ _ _ (i_ki _ I) f) as S. unfold sfok in S. rewrite P in S. simpl in S. destruct S as (_ & _ & S & _).
        destruct Bl as [B1 B2]. destruct kl as [g t|g|d]; unfold kstep in Q.
        -- destruct (thr (kn (xs s)) t); [discriminate Q|]. destruct (queued (fib (kn (xs s)) g) && _) eqn:Eq; [|discriminate Q]. inversion Q.
           split; simpl; (destruct (Nat.eq_dec f g) as [<-|Ng]; [rewrite B2 in Eq; discriminate Eq|now rewrite upd_other]).
        -- destruct (thr (kn (xs s)) _); [discriminate Q|]. destruct (sleep (fib (kn (xs s)) g)) as [[tp e1]|] eqn:Es; [|discriminate Q].
           destruct (Nat.leb tp _); [|discriminate Q]. inversion Q.
           destruct (Nat.eq_dec f g) as [<-|Ng]; [congruence|].
           unfold wake, set_fib. simpl. destruct (Nat.eqb _ _); simpl; split; simpl; rewrite ?(upd_other _ g _ f Ng); auto.
        -- inversion Q. split; auto.
      * exfalso. apply N. right; right. exists c. rewrite Q. auto.
      * exfalso. apply N. right; right. exists c. auto.
    + rewrite Q2. intros X. destruct (named_step _ _ _ _ Hs0 X) as [X1|(g & o1 & r & X1 & X2 & X3 & _)]; auto.
      inversion X3; subst g. congruence.
  - split; [simpl; eapply inv_throw; eauto|]. simpl.
    assert (Nf : f <> c) by (intros ->; congruence).
    split; [exists e; now rewrite upd_other|]. split; auto.
    intros [X|[X|(d & X)]]; apply N; simpl in X; [now left|now (right; left)|right; right; exists d]. revert X. upds; auto. intros [X|X]; discriminate X.
Qed.

(** After the throw. *)
Lemma gone_throw (s : xstate V) c s' o0 f n o : XAll s -> xstep s (XThrow c) = Some s' -> pcs (xs s) c = CRead o0 (f, n) ->
  blocked (kn (xs s)) f -> pending (log (xs s)) f = Some o -> (exists v, o = Push v) -> n = calls (xs s) f ->
  (forall g, pending (log (xs s)) g <> Some Close) -> gone s' f o.
Proof.
  intros A Hs P Bl Pe (v & Ho) Hn NoC.
  destruct (xstep_cases _ _ _ Hs) as [(l0 & E & _)|(c' & o1 & p & r & E & Pc & R & D & ->)]; [discriminate E|].
  inversion E; subst c'. rewrite P in Pc. inversion Pc; subst o1 p. clear E Pc. pose proof (x_i _ A) as I.
  assert (Hf : holds (pcs (xs s) c) = Some (f, n)) by now rewrite P.
  split; [simpl; eapply inv_throw; eauto|]. simpl.
  assert (Nf : f <> c).
  { intros ->. destruct Bl. congruence. }
  splits; auto.
  - rewrite upd_other by auto. destruct (i_off _ I f n) as [_ O2]; [right; right; exists c; auto|]. specialize (O2 Hn).
    destruct (blocked_where _ _ _ _ I Bl Pe) as [[_ [[_ X]|X]]|[X _]].
    + apply inq0_pre in X. congruence.
    + rewrite (i_pend _ I) in Pe. pose proof (i_wf _ I f) as Wf. destruct (pcs (xs s) f) eqn:E; simpl in X, Pe, Wf; try discriminate X; inversion Pe; subst.
      * exfalso. pose proof (si_f _ _ _ (i_ki _ I) f) as S. unfold sfok in S. rewrite E in S. simpl in S. destruct Bl as [Bl _].
        destruct S as (_ & _ & S & _). congruence.
      * eauto.
      * destruct Wf as [w Wf]. discriminate Wf.
    + subst o. contradiction.
  - intros [X|[X|(d & X)]]; simpl in X; rewrite <- Hn in X.
    + revert X. apply (t_unread _ (i_tok _ I) c). now rewrite P.
    + apply (proj2 (t_slot _ (i_tok _ I) _ X) c Hf).
    + revert X. upds; [intros [X|X]; discriminate X|]. intros [X|X].
      * apply n0. eapply (t_uniq _ (i_tok _ I)); eauto.
      * apply (NoC d). rewrite (i_pend _ I), X. reflexivity.
Qed.
End Proofs.

(** ** C87 *)
(** Every value moved to a consumer is the value of the named push call. *)
Theorem C87_received_was_offered : forall V (s : xstate V) c p x,
  reachable xstep xinit s -> In (EXfer c p x) (log (xs s)) -> exists v, x = Some v /\ pushed (log (xs s)) (fst p) (snd p) v.
Proof. intros V s c p x R H. exact (i_xf _ (x_i _ (xall_reach _ R)) c p x H). Qed.
(** No push call's value is moved twice, and none is moved after a move of it has thrown, or before. *)
Theorem C87_at_most_once : forall V (s : xstate V), reachable xstep xinit s ->
  NoDup (consumed (log (xs s))) /\ forall p, In p (thrown s) -> ~ In p (consumed (log (xs s))).
Proof.
  intros V s R. pose proof (xall_reach _ R) as A. split; [exact (t_nd _ (i_tok _ (x_i _ A)))|].
  intros [f n] H. exact (proj1 (x_th _ A f n H)).
Qed.
(** Pops return exactly what was moved. *)
Theorem C87_pops_return_what_was_moved : forall V (s : xstate V) c,
  reachable xstep xinit s -> taken (log (xs s)) c = got (log (xs s)) c \/ exists x, taken (log (xs s)) c = x :: got (log (xs s)) c.
Proof. intros V s c R. rewrite (i_got _ (x_i _ (xall_reach _ R)) c). destruct (pcs (xs s) c); simpl; eauto. Qed.
(** A push that returns success had its value received; no move of it has thrown. *)
Theorem C87_success_means_received : forall V (s : xstate V) h2 f o t h1,
  reachable xstep xinit s -> log (xs s) = h2 ++ ERet f o (RStatus Success) t :: h1 ->
  is_push o /\ In (f, npush h1 f) (consumed h1) /\ ~ In (f, npush h1 f) (thrown s).
Proof.
  intros V s h2 f o t h1 R E. pose proof (xall_reach _ R) as A. destruct (x_log _ A _ _ _ _ _ _ E) as (_ & X & Y). splits; auto.
  intros T. apply (proj1 (x_th _ A _ _ T)). rewrite E. unfold consumed. rewrite flat_map_app. apply in_or_app. right. exact Y.
Qed.
(** A pop of fiber 2 throws on the value of fiber 1 whose timed push times out; fiber 2 then receives the next value. *)
Example C87_ex : exists s : xstate nat, reachable xstep xinit s /\ thrown s = [(1, 1)] /\
  log (xs s) = [ERet 1 (Push 8) (RStatus Success) 6; ERet 2 ValuePop (RValue (Some 8)) 6; EXfer 2 (1, 2) (Some 8); ECall 2 ValuePop; ECall 1 (Push 8);
    ERet 1 (PushUntil 7 3) (RStatus Timeout) 6; ERet 2 Pop RExc 0; ECall 2 Pop; ECall 1 (PushUntil 7 3)].
Proof.
  apply (reach_by xstep xinit (map XL [LK (Pick 1 1); LK (Pick 2 2); LCall 1 (PushUntil 7 3); LRun 1; LRun 1; LRun 1; LCall 2 Pop; LRun 2; LRun 2] ++
    XThrow 2 :: map XL [LK (Tick 5); LK (Timer 1); LK (Pick 1 1); LRun 1; LRun 1; LCall 1 (Push 8); LRun 1; LRun 1; LRun 1;
    LCall 2 ValuePop; LRun 2; LRun 2; LRun 2; LRun 2; LK (Pick 1 1); LRun 1])). vm_compute. auto.
Qed.

(** ** C88 *)
(** Full statement: when a pop ends with the exception of a move, the producer concerned is not lost: if it is blocked
    in push, then it may still become able to go on. False, for every such pop: *)
Definition producer_released {V} (s s' : xstate V) : Prop := forall f, blocked (kn (xs s)) f -> In (f, npush (log (xs s)) f) (thrown s') ->
  ~ In (f, npush (log (xs s)) f) (thrown s) -> exists ls s'', exec xstep s' ls = Some s'' /\ runnable (kn (xs s'')) f.

(** unless the push has a deadline, or a close() in progress has already seen the slot, the producer stays blocked in every
    continuation, whatever the other fibers do (also if they close the channel). *)
Theorem C88_strands : forall V (s : xstate V) c s' f v,
  reachable xstep xinit s -> xstep s (XThrow c) = Some s' ->
  blocked (kn (xs s)) f -> pending (log (xs s)) f = Some (Push v) -> In (f, npush (log (xs s)) f) (thrown s') ->
  ~ In (f, npush (log (xs s)) f) (thrown s) -> (forall g, pending (log (xs s)) g <> Some Close) ->
  forall ls s'', exec xstep s' ls = Some s'' -> blocked (kn (xs s'')) f /\ pending (log (xs s'')) f = Some (Push v).
Proof.
  intros V s c s' f v R Hs Bl Pe T NT NoC ls s'' He. pose proof (xall_reach _ R) as A.
  assert (G : gone s' f (Push v)).
  { destruct (xstep_cases _ _ _ Hs) as [(l0 & E & _)|(c' & o1 & p & r & E & Pc & Rc & D & ->)]; [discriminate E|]. inversion E; subst c'.
    simpl in T. destruct T as [T|T]; [|contradiction]. subst p.
    eapply gone_throw; eauto. now rewrite (i_calls _ (x_i _ A)). }
  assert (G' : gone s'' f (Push v)).
  { refine (exec_inv xstep (fun x => gone x f (Push v)) _ ls s' s'' G He). intros. eapply gone_step; eauto. }
  destruct G' as (I & (e & P) & B & _). split; [exact B|]. now rewrite (i_pend _ I), P.
Qed.
(** Fiber 1 is blocked in push(7), fiber 2 has taken its slot and is about to move the value. *)
Definition before_throw : list (xlabel nat) :=
  map XL [LK (Pick 1 1); LK (Pick 2 2); LCall 1 (Push 7); LRun 1; LRun 1; LRun 1; LCall 2 Pop; LRun 2; LRun 2].
Lemma before_throw_ok : exists s s' : xstate nat, reachable xstep xinit s /\ xstep s (XThrow 2) = Some s' /\
  blocked (kn (xs s)) 1 /\ log (xs s) = [ECall 2 Pop; ECall 1 (Push 7)] /\ thrown s = [] /\ thrown s' = [(1, 1)].
Proof.
  assert (H : exists s s', exec xstep xinit before_throw = Some s /\ xstep s (XThrow 2) = Some s' /\
    blocked (kn (xs s)) 1 /\ log (xs s) = [ECall 2 Pop; ECall 1 (Push 7)] /\ thrown s = [] /\ thrown s' = [(1, 1)]).
  { eexists. eexists. split; [vm_compute; reflexivity|]. split; [vm_compute; reflexivity|]. vm_compute. auto. }
  destruct H as (s & s' & H & H'). exists s, s'. split; [eexists; exact H|exact H'].
Qed.
Theorem C88_refuted : exists s s' : xstate nat, reachable xstep xinit s /\ xstep s (XThrow 2) = Some s' /\ ~ producer_released s s' /\
  (forall ls s'', exec xstep s' ls = Some s'' -> blocked (kn (xs s'')) 1 /\ pending (log (xs s'')) 1 = Some (Push 7)).
Proof.
  destruct before_throw_ok as (s & s' & R & Hs & B & E & T & T').
  assert (S : forall ls s'', exec xstep s' ls = Some s'' -> blocked (kn (xs s'')) 1 /\ pending (log (xs s'')) 1 = Some (Push 7)).
  { apply (C88_strands nat s 2 s' 1 7 R Hs B); rewrite ?E, ?T, ?T'; simpl; auto.
    intros [|[|[|g]]]; discriminate. }
  exists s, s'. splits; auto. intros H. destruct (H 1 B) as (ls & s'' & X & Y).
  - rewrite E, T'. simpl. auto.
  - rewrite T. auto.
  - destruct (S _ _ X) as [[S1 S2] _]. destruct Y; congruence.
Qed.
(** close() after the exception does not help. *)
Example C88_ex_close : exists s : xstate nat, reachable xstep xinit s /\ was_closed (log (xs s)) /\ blocked (kn (xs s)) 1 /\
  log (xs s) = [ERet 2 Close RVoid 0; ECall 2 Close; ERet 2 Pop RExc 0; ECall 2 Pop; ECall 1 (Push 7)].
Proof.
  destruct (reach_by xstep xinit (before_throw ++ XThrow 2 :: map XL [LCall 2 Close; LRun 2; LRun 2; LRun 2; LRun 2])
    (fun s => blocked (kn (xs s)) 1 /\ log (xs s) = [ERet 2 Close RVoid 0; ECall 2 Close; ERet 2 Pop RExc 0; ECall 2 Pop; ECall 1 (Push 7)]))
    as (s & R & B & E); [vm_compute; auto|].
  exists s. splits; auto. rewrite E. exists 2, 0. simpl. auto.
Qed.

(** What holds: only the producers whose own value was concerned are lost. As in C27, a producer and a consumer are not both
    blocked, unless some other fiber inside an operation can go on, or a move of this producer's value has thrown. *)
Theorem C88_rendezvous_partial : forall V (s : xstate V),
  reachable xstep xinit s -> never_closed (log (xs s)) -> no_timeout (log (xs s)) -> forall f g o1 o2,
  blocked (kn (xs s)) f -> pending (log (xs s)) f = Some o1 -> is_push o1 ->
  blocked (kn (xs s)) g -> pending (log (xs s)) g = Some o2 -> is_pop o2 ->
  In (f, npush (log (xs s)) f) (thrown s) \/ exists h o, runnable (kn (xs s)) h /\ pending (log (xs s)) h = Some o.
Proof.
  intros V s R N T f g o1 o2 Bf Pf Hf Bg Pg Hg. pose proof (xall_reach _ R) as A. pose proof (x_i _ A) as I.
  assert (Qg : bq (xs s) 1 g).
  { destruct (blocked_where _ _ _ _ I Bg Pg) as [[X _]|[_ X]]; auto. destruct o2; simpl in *; contradiction. }
  assert (Lv : live (xs s)) by (split; auto).
  assert (Some_run : forall c o, xrunnable (fib (kn (xs s)) c) -> op_of (pcs (xs s) c) = Some o -> exists h o, runnable (kn (xs s)) h /\ pending (log (xs s)) h = Some o).
  { intros c o X Y. exists c, o. split; auto. now rewrite (i_pend _ I). }
  assert (Slot : forall p, slot (xs s) = Some p -> exists h o, runnable (kn (xs s)) h /\ pending (log (xs s)) h = Some o).
  { intros p E. destruct (x_ai _ A Lv p g E Qg) as [(o & e & X)|(c & X & Y)].
    - pose proof (si_f _ _ _ (i_ki _ I) (fst p)) as S. unfold sfok in S. rewrite X in S. simpl in S.
      eapply (Some_run (fst p)); [left; intuition|rewrite X; reflexivity].
    - destruct (pcs (xs s) c) eqn:Ec; simpl in Y; try discriminate Y; eapply (Some_run c); eauto; rewrite Ec; reflexivity. }
  destruct (blocked_where _ _ _ _ I Bf Pf) as [[_ [X|X]]|[X _]].
  - right. destruct (slot (xs s)) as [p|] eqn:E; [eapply Slot; eauto|].
    destruct (x_bi _ A Lv f X E) as [(c & o & p & Y)|(c & Y & Z)].
    + eapply (Some_run c); [apply (none_runnable _ _ I); now rewrite Y|rewrite Y; reflexivity].
    + destruct (pcs (xs s) c) eqn:Ec; simpl in Z; try discriminate Z; eapply (Some_run c); eauto; rewrite Ec; reflexivity.
  - destruct (w_offer _ _ (x_wok _ A) f _ X eq_refl) as [[Y|[c Y]]|Y].
    + right. eapply Slot; eauto.
    + right. destruct (holds_runnable _ _ _ _ I Y) as [Z (o & Z1 & _)]. eauto.
    + left. now rewrite <- (i_calls _ I).
  - destruct o1; simpl in *; contradiction.
Qed.
(** The value of fiber 1 is lost, fiber 3 is blocked in push, fiber 4 in pop, and fiber 2 is runnable in a second pop. *)
Example C88_ex : exists s : xstate nat, reachable xstep xinit s /\ never_closed (log (xs s)) /\ no_timeout (log (xs s)) /\
  blocked (kn (xs s)) 1 /\ blocked (kn (xs s)) 3 /\ blocked (kn (xs s)) 4 /\ thrown s = [(1, 1)] /\
  pending (log (xs s)) 1 = Some (Push 7) /\ pending (log (xs s)) 3 = Some (Push 8) /\ pending (log (xs s)) 4 = Some Pop.
Proof.
  destruct (reach_by xstep xinit (before_throw ++ XThrow 2 :: map XL [LK (Pick 3 3); LK (Pick 4 4); LCall 2 Pop; LRun 2; LRun 2; LRun 2; LCall 4 Pop; LRun 4; LRun 4; LRun 4;
      LCall 3 (Push 8); LRun 3; LRun 3; LRun 3])
    (fun s => blocked (kn (xs s)) 1 /\ blocked (kn (xs s)) 3 /\ blocked (kn (xs s)) 4 /\ thrown s = [(1, 1)] /\
      log (xs s) = [ECall 3 (Push 8); ECall 4 Pop; ECall 2 Pop; ERet 2 Pop RExc 0; ECall 2 Pop; ECall 1 (Push 7)])) as (s & R & B1 & B3 & B4 & T & E); [vm_compute; auto 10|].
  exists s. rewrite E. splits; auto.
  - intros f H. simpl in H. intuition discriminate.
  - intros f o t H. simpl in H. intuition discriminate.
Qed.

Definition all_throw :=
  (@C87_received_was_offered, @C87_at_most_once, @C87_pops_return_what_was_moved, @C87_success_means_received,
   @C88_strands, @C88_refuted, @C88_rendezvous_partial).
Print Assumptions all_throw.
