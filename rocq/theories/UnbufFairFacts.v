(** Proofs for C143: two infinite executions on one thread with round_robin. *)
From Coq Require Import List Arith Bool Lia.
From Verif Require Import Base Lasso Kernel Unbuffered UnbufferedSpec UnbufFair UnbufFairSpec.
Import ListNotations.

Section Fair.
Context {V : Type}.
Variable v : V.
Notation label := (label V).
Notation rstate := (rstate V).

(** Fiber 2 waits in push(); fibers 1 and 3 repeat { push( v); yield(); }, fiber 4 { pop(); yield(); }. *)
Definition push_fs : list fid := [1; 2; 4; 3].
Definition push_pre : list label :=
  [LK (Pick 1 1); LCall 1 (Push v); LRun 1; LRun 1; LRun 1;
   LK (Pick 2 1); LCall 2 (Push v); LRun 2; LRun 2; LRun 2; LRun 2].
Definition turn (a b : fid) : list label :=
  [LK (Pick 4 1); LCall 4 Pop; LRun 4; LRun 4; LRun 4; LRun 4; LYield 4;
   LK (Pick b 1); LCall b (Push v); LRun b; LRun b; LRun b;
   LK (Pick 2 1); LRun 2; LRun 2; LRun 2; LRun 2; LRun 2;
   LK (Pick a 1); LRun a; LYield a].
Definition push_cycle : list label := turn 1 3 ++ turn 3 1.
(** Fiber 2 waits in pop(); fiber 3 repeats { pop(); yield(); }, fiber 4 { push( v); }. *)
Definition pop_fs : list fid := [2; 4; 3].
Definition pop_tail : list label :=
  [LCall 4 (Push v); LRun 4; LRun 4; LRun 4;
   LK (Pick 3 1); LCall 3 Pop; LRun 3; LRun 3; LRun 3; LRun 3; LYield 3;
   LK (Pick 2 1); LRun 2; LRun 2; LRun 2; LRun 2].
Definition pop_pre : list label := [LK (Pick 2 1); LCall 2 Pop; LRun 2; LRun 2; LRun 2; LK (Pick 4 1)] ++ pop_tail.
Definition pop_cycle : list label := LK (Pick 4 1) :: LRun 4 :: pop_tail.

(** The situation before a turn: the value of [a] is in slot_, [b] is about to push. *)
Definition round (a b n : nat) (x : rstate) : Prop :=
  exists fb th nw er qs fr ca pc asr lg na ea ha sa xa eb hb sb e2 h2 s2 c2 w2 e4 h4 s4,
  x = mkR (mkState (mkKern fb th nw er) (Some (a, na)) false None None qs fr ca pc false asr lg) [4; b] /\
  th 1 = None /\
  fb a = mkFiber ea false false ha sa /\ fb b = mkFiber eb false true hb sb /\
  fb 2 = mkFiber e2 false false h2 s2 /\ fb 4 = mkFiber e4 false true h4 s4 /\
  pc a = PSusp (Push v) xa /\ pc b = Idle /\ pc 2 = PWait (Push v) e2 /\ pc 4 = Idle /\
  fr a = Some (mkSlot na (Some v) ea) /\ fr 2 = Some (mkSlot c2 (Some v) w2) /\
  qs 0 = [(2, e2)] /\ qs 1 = [] /\
  received lg 4 >= n /\ In (ECall 2 (Push v)) lg /\ (forall e, In e lg -> caller e = 2 -> e = ECall 2 (Push v)).
(** The situation before a round of [pop_cycle]: the value of fiber 4 has been received. *)
Definition pround (n : nat) (x : rstate) : Prop :=
  exists fb th nw er qs fr ca pc asr lg xa e3 h3 s3 e2 h2 s2 e4 h4 s4,
  x = mkR (mkState (mkKern fb th nw er) None false None None qs fr ca pc false asr lg) [4; 3] /\
  th 1 = None /\
  fb 3 = mkFiber e3 false true h3 s3 /\ fb 2 = mkFiber e2 false false h2 s2 /\ fb 4 = mkFiber e4 false true h4 s4 /\
  pc 4 = PSusp (Push v) xa /\ pc 3 = Idle /\ pc 2 = CWait Pop e2 /\
  qs 0 = [] /\ qs 1 = [(2, e2)] /\
  received lg 3 >= n /\ In (ECall 2 Pop) lg /\ (forall e, In e lg -> caller e = 2 -> e = ECall 2 Pop).

Lemma exec_then {S L} (stp : S -> L -> option S) s l ls s1 (P : S -> Prop) :
  stp s l = Some s1 -> (exists x, exec stp s1 ls = Some x /\ P x) -> exists x, exec stp s (l :: ls) = Some x /\ P x.
Proof. simpl. now intros ->. Qed.
Lemma notify_hit k f e q : epoch (fib k f) = e -> notify_one k ((f, e) :: q) =
  (mkKern (upd (fib k) f (mkFiber (S e) (running (fib k f)) true (home (fib k f)) (sleep (fib k f)))) (thr k) (now k) (err k || queued (fib k f)), q).
Proof. intros E. cbv beta iota zeta delta [notify_one wake]. rewrite E, Nat.eqb_refl. reflexivity. Qed.
Lemma notify_nil k : notify_one k [] = (k, []).
Proof. reflexivity. Qed.

(** Evaluates one step; the functions in the state are variables whose values at the fibers of the program are in the context. *)
Ltac redx := cbv beta iota zeta delta [rstep step kstep run_step try_push blockP blockC call_op entry value_of deadline ret add_log goto set_kn set_slot set_lkP set_lkC set_queue set_frame set_ub set_asrt
  notify1 deref yield suspend suspend_and_wait suspend_and_wait_end create_waker wake set_fib kassert flips filter push_fs pop_fs app
  ust rqueue kn slot closed lkP lkC queues frames calls pcs ub asrt log fib thr now err epoch running queued home sleep fst snd call sval we negb andb orb].
Ltac rew := repeat (first [rewrite upd_same | rewrite upd_other by discriminate | rewrite Nat.eqb_refl | rewrite notify_nil | rewrite notify_hit by (redx; rew; reflexivity)
    | match goal with H : ?m ?i = _ |- context [?m ?i] => is_var m; rewrite H end | progress redx]).
Ltac vals m m' E i := try (let F := fresh "F" in assert (F : m' i = m i) by (rewrite E; reflexivity);
   repeat (first [rewrite upd_same in F | rewrite upd_other in F by discriminate]);
   repeat match type of F with _ = ?k ?j => is_var k; match goal with H : k j = _ |- _ => rewrite H in F end end).
Ltac gen1 m := tryif is_var m then idtac else (let m' := fresh "m" in let E := fresh "E" in remember m as m' eqn:E; vals m m' E 0; vals m m' E 1; vals m m' E 2; vals m m' E 3; vals m m' E 4; clear E).
Ltac gen := match goal with |- exists x, exec _ (mkR (mkState (mkKern ?fb ?th ?nw ?er) _ _ _ _ ?qs ?fr ?ca ?pc _ ?asr ?lg) _) _ = _ /\ _ =>
   gen1 fb; gen1 th; gen1 qs; gen1 fr; gen1 ca; gen1 pc; try (generalize er; intro) end;
   repeat match goal with H : ?m _ = _ |- ?g => is_var m; lazymatch g with context [m] => fail | _ => clear H end end.
Ltac one := eapply exec_then; [redx; rew; cbn [Nat.eqb]; rew; reflexivity|]; gen.

Ltac quiet He A := repeat (destruct He as [<-|He]; [try discriminate; try reflexivity|]); now apply A.

Lemma turn_13 n x : round 1 3 n x -> exists x', exec (rstep push_fs) x (turn 1 3) = Some x' /\ round 3 1 (S n) x'.
Proof.
  intros (fb & th & nw & er & qs & fr & ca & pc & asr & lg & na & ea & ha & sa & xa & eb & hb & sb & e2 & h2 & s2 & c2 & w2 & e4 & h4 & s4 & -> & A1 & A2 & A3 & A4 & A5 & A6 & A7 & A8 & A9 & A10 & A11 & A12 & A13 & L1 & L2 & L3).
  unfold turn. do 21 one. eexists. split; [reflexivity|].
  do 26 eexists. split; [reflexivity|]. splits; eauto; [unfold received in *; simpl; lia|simpl; tauto|].
  intros e He. quiet He L3.
Qed.
Lemma turn_31 n x : round 3 1 n x -> exists x', exec (rstep push_fs) x (turn 3 1) = Some x' /\ round 1 3 (S n) x'.
Proof.
  intros (fb & th & nw & er & qs & fr & ca & pc & asr & lg & na & ea & ha & sa & xa & eb & hb & sb & e2 & h2 & s2 & c2 & w2 & e4 & h4 & s4 & -> & A1 & A2 & A3 & A4 & A5 & A6 & A7 & A8 & A9 & A10 & A11 & A12 & A13 & L1 & L2 & L3).
  unfold turn. do 21 one. eexists. split; [reflexivity|].
  do 26 eexists. split; [reflexivity|]. splits; eauto; [unfold received in *; simpl; lia|simpl; tauto|].
  intros e He. quiet He L3.
Qed.
Lemma push_first : exists x, exec (rstep push_fs) (rinit push_fs) push_pre = Some x /\ round 1 3 0 x.
Proof.
  eexists. split; [vm_compute; reflexivity|]. do 26 eexists. split; [reflexivity|]. splits; try (cbn; reflexivity); [lia|simpl; tauto|].
  intros e He. repeat (destruct He as [<-|He]; [try discriminate; try reflexivity|]); destruct He.
Qed.
Lemma push_round n x : round 1 3 n x -> exists x', exec (rstep push_fs) x push_cycle = Some x' /\ round 1 3 (S n) x'.
Proof.
  intros R. destruct (turn_13 n x R) as (y & E & R1). destruct (turn_31 _ y R1) as (z & E2 & R2).
  exists z. split; [apply exec_app; exists y; auto|].
  unfold round in *. decompose [ex and] R2. do 26 eexists. split; [eassumption|]. splits; eauto. lia.
Qed.
Lemma pop_round n x : pround n x -> exists x', exec (rstep pop_fs) x pop_cycle = Some x' /\ pround (S n) x'.
Proof.
  intros (fb & th & nw & er & qs & fr & ca & pc & asr & lg & xa & e3 & h3 & s3 & e2 & h2 & s2 & e4 & h4 & s4 & -> & A1 & A2 & A3 & A4 & A5 & A6 & A7 & A8 & A9 & L1 & L2 & L3).
  unfold pop_cycle, pop_tail. do 18 one. eexists. split; [reflexivity|].
  do 20 eexists. split; [reflexivity|]. splits; eauto; [unfold received in *; simpl; lia|simpl; tauto|].
  intros e He. quiet He L3.
Qed.
Lemma pop_first : exists x, exec (rstep pop_fs) (rinit pop_fs) pop_pre = Some x /\ pround 0 x.
Proof.
  eexists. split; [vm_compute; reflexivity|]. do 20 eexists. split; [reflexivity|]. splits; try (cbn; reflexivity); [lia|simpl; tauto|].
  intros e He. repeat (destruct He as [<-|He]; [try discriminate; try reflexivity|]); destruct He.
Qed.
End Fair.
