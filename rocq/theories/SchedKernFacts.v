(** Proofs about the scheduler: the steps without error (as in SchedFacts2.v) together with the actions they are translated into. *)
From Coq Require Import List Arith Bool Lia.
From Verif Require Import Base Sched SchedSpec SchedFacts SchedFacts2 SchedKern.
From Verif Require Kernel.
Import ListNotations.

Definition preact (a : ctx) (p : pc) : list kact :=
  match p with
  | PYield | PShut2 => [AYield (code a)]
  | PSusp _ (WTimed tp) | PSusp _ (WSleep tp) => [AWait (code a) tp]
  | PSusp _ WBlock | PDead => [ASusp (code a)]
  | _ => []
  end.
Definition wkact (s : state) (a g : ctx) (e : nat) (k : kont) : list kact :=
  match k with
  | KDisp _ => if Nat.eqb (ep (cx s g)) e then [ASys (Kernel.Timer (code g))] else []
  | _ => [AWake (code a) (code g) e]
  end.

Inductive ltr (s s' : state) (al : list kact) : option tid -> Prop :=
| ZTick d : al = [ASys (Kernel.Tick d)] -> eqs s' (cx s) (th s) (hn s) (hb s) (clk s + S d) (log s) -> ltr s s' al (None)
| ZFail t a h ev : al = [] -> a = act (th s t) -> pcc (cx s a) = PIdle -> hb s h = false ->
    (hn s h = None /\ (ev = [EJoinRet a h None JInvalid; EJoin a h] \/ ev = [EDetach a h None JInvalid])) \/
    (hn s h = Some a /\ ev = [EJoinRet a h (Some a) JDeadlock; EJoin a h]) ->
    eqs s' (cx s) (th s) (hn s) (hb s) (clk s) (ev ++ log s) -> ltr s s' al (Some t)
| ZPc t a p ev : al = [] -> a = act (th s t) -> pmove s t a p ev ->
    eqs s' (cupd (cx s) a (c_pc (cx s a) p)) (th s) (hn s) (hb s) (clk s) (ev ++ log s) -> ltr s s' al (Some t)
| ZPost t a n h c : al = [] -> a = act (th s t) -> pcc (cx s a) = PIdle -> c = Wk n -> pcc (cx s c) = PNone -> hn s h = None -> hb s h = false ->
    eqs s' (cupd (cx s) c (new_worker t))
           (upd (th s) t (t_rq (t_wk (th s t) (wkr (th s t) ++ [c]) (trm (th s t))) (rq (th s t) ++ [c]) (sremove c (slp (th s t)))))
           (upd (hn s) h (Some c)) (upd (hb s) h false) (clk s) (EAwake t c :: ELaunch a Post h c :: log s) -> ltr s s' al (Some t)
| ZDisp t a n h c : al = [AYield (code a); ASys (Kernel.Pick (code c) t)] -> a = act (th s t) -> pcc (cx s a) = PIdle -> c = Wk n -> pcc (cx s c) = PNone -> hn s h = None -> hb s h = false ->
    eqs s' (cupd (cupd (cx s) c (new_worker t)) a (c_pc (cx s a) PYield))
           (upd (th s) t (t_run (t_rq (t_wk (th s t) (wkr (th s t) ++ [c]) (trm (th s t))) (rq (th s t)) (sremove a (slp (th s t)))) c (rq (th s t) ++ [a])))
           (upd (hn s) h (Some c)) (upd (hb s) h false) (clk s) (EAwake t a :: ERun t c :: ELaunch a Dispatch h c :: log s) -> ltr s s' al (Some t)
| ZOut t a x rdy sl ev c r : al = preact a (pcc x) ++ next s t -> a = act (th s t) -> pout s t a x rdy sl ev -> rq (th s t) = c :: r -> freed (cx s c) = false ->
    eqs s' (cupd (cx s) a x)
           (upd (th s) t (if rdy then t_run (t_slp (th s t) (sremove a sl)) c (r ++ [a]) else t_run (t_slp (th s t) sl) c r))
           (hn s) (hb s) (clk s) ((if rdy then [EAwake t a] else []) ++ ERun t c :: EPick t c :: ev ++ log s) -> ltr s s' al (Some t)
| ZArm t a e : al = [AArm (code a)] -> a = act (th s t) -> pcc (cx s a) = PIdle -> e = S (ep (cx s a)) ->
    eqs s' (cupd (cx s) a (c_pc (c_iss (c_ep (cx s a) e) (e :: iss (cx s a))) (PArmed e))) (th s) (hn s) (hb s) (clk s) (log s) -> ltr s s' al (Some t)
| ZWakeN t a g e k x sl ev : al = wkact s a g e k -> a = act (th s t) -> pwake s t a g e k x sl ev -> ep (if ctx_eqb g a then x else cx s g) <> e ->
    eqs s' (cupd (cx s) a x) (upd (th s) t (t_slp (th s t) sl)) (hn s) (hb s) (clk s) (ev ++ log s) -> ltr s s' al (Some t)
| ZWakeL t a g e k x sl ev : al = wkact s a g e k -> a = act (th s t) -> pwake s t a g e k x sl ev -> a <> g -> ep (cx s g) = e -> home (cx s g) = t ->
    eqs s' (cupd (cupd (cx s) a x) g (c_ep (cx s g) (S e))) (upd (th s) t (t_rq (th s t) (rq (th s t) ++ [g]) (sremove g sl)))
           (hn s) (hb s) (clk s) (EAwake t g :: EWake g e :: ev ++ log s) -> ltr s s' al (Some t)
| ZWakeR t a g e k x sl ev : al = wkact s a g e k -> a = act (th s t) -> pwake s t a g e k x sl ev -> a <> g -> ep (cx s g) = e -> home (cx s g) <> t ->
    eqs s' (cupd (cupd (cx s) a (c_pc x (PPush g k))) g (c_ep (cx s g) (S e))) (upd (th s) t (t_slp (th s t) sl))
           (hn s) (hb s) (clk s) (EWake g e :: ev ++ log s) -> ltr s s' al (Some t)
| ZPush t a g k u ev : al = [] -> a = act (th s t) -> pcc (cx s a) = PPush g k -> u = home (cx s g) -> gone (th s u) = false ->
    ev = (if shut (th s u) then [EShutAssert u] else []) ->
    eqs s' (cupd (cx s) a (c_pc (cx s a) (PNote u k))) (upd (th s) u (t_rem (th s u) (rrq (th s u) ++ [g]) (tmp (th s u))))
           (hn s) (hb s) (clk s) (ev ++ log s) -> ltr s s' al (Some t)
| ZNote t a u k : al = [] -> a = act (th s t) -> pcc (cx s a) = PNote u k -> gone (th s u) = false ->
    eqs s' (cupd (cx s) a (c_pc (cx s a) (kpc k))) (upd (th s) u (t_fl (th s u) (shut (th s u)) true (gone (th s u)))) (hn s) (hb s) (clk s) (log s) -> ltr s s' al (Some t)
| ZCallJoin t a h c : al = [] -> a = act (th s t) -> pcc (cx s a) = PIdle -> hb s h = false -> hn s h = Some c -> c <> a ->
    eqs s' (cupd (cx s) a (c_pc (cx s a) (PJoin h c))) (th s) (hn s) (upd (hb s) h true) (clk s) (EJoin a h :: log s) -> ltr s s' al (Some t)
| ZJoin t a h c e d r : al = AArm (code a) :: ASusp (code a) :: next s t -> a = act (th s t) -> pcc (cx s a) = PJoin h c -> freed (cx s c) = false -> lkd (cx s c) = false -> term (cx s c) = false ->
    e = S (ep (cx s a)) -> rq (th s t) = d :: r -> freed (cx s d) = false ->
    eqs s' (let C := cupd (cx s) c (c_wtq (cx s c) (wtq (cx s c) ++ [(a, e)])) in cupd C a (c_pc (c_ep (C a) e) (PSusp e (WJoin h c))))
           (upd (th s) t (t_run (th s t) d r)) (hn s) (hb s) (clk s) (ERun t d :: EPick t d :: log s) -> ltr s s' al (Some t)
| ZRel t a h c z ev : al = [] -> a = act (th s t) -> pcc (cx s a) = PRel h c -> prel s c (cupd (cx s) a (c_pc (cx s a) PIdle) c) z ev ->
    eqs s' (cupd (cupd (cx s) a (c_pc (cx s a) PIdle)) c z) (th s) (upd (hn s) h None) (upd (hb s) h false) (clk s)
           (ev ++ EJoinRet a h (Some c) JOk :: log s) -> ltr s s' al (Some t)
| ZDetach t a h c z ev : al = [] -> a = act (th s t) -> pcc (cx s a) = PIdle -> hb s h = false -> hn s h = Some c -> prel s c (cx s c) z ev ->
    eqs s' (cupd (cx s) c z) (th s) (upd (hn s) h None) (upd (hb s) h false) (clk s) (ev ++ EDetach a h (Some c) JOk :: log s) -> ltr s s' al (Some t)
| ZMove t a h1 h2 : al = [] -> a = act (th s t) -> pcc (cx s a) = PIdle -> hb s h1 = false -> hb s h2 = false -> h1 <> h2 -> hn s h2 = None ->
    eqs s' (cx s) (th s) (upd (upd (hn s) h2 (hn s h1)) h1 None) (upd (upd (hb s) h2 false) h1 false) (clk s) (EMove h1 h2 :: log s) -> ltr s s' al (Some t)
| ZShut t u : al = [] -> act (th s t) = Mn u -> pcc (cx s (Mn u)) = PIdle ->
    eqs s' (cupd (cx s) (Mn u) (c_pc (cx s (Mn u)) PShut)) (upd (th s) t (t_fl (th s t) true (flg (th s t)) (gone (th s t)))) (hn s) (hb s) (clk s) (log s) -> ltr s s' al (Some t)
| ZExit t a : al = [] -> a = act (th s t) -> pcc (cx s a) = PExit -> lkd (cx s a) = false ->
    eqs s' (cupd (cx s) a (c_pc (c_term (cx s a) true true) PTerm)) (th s) (hn s) (hb s) (clk s) (log s) -> ltr s s' al (Some t)
| ZLeave t a : al = [] -> a = act (th s t) -> pcc (cx s a) = PTerm -> wtq (cx s a) = [] -> unlinked s a = true -> worker_linked s a = true ->
    eqs s' (cupd (cx s) a (c_pc (c_term (cx s a) true false) PLeave)) (upd (th s) t (t_wk (th s t) (remove a (wkr (th s t))) (trm (th s t) ++ [a])))
           (hn s) (hb s) (clk s) (ELeft a :: log s) -> ltr s s' al (Some t)
| ZDown t a z ev : al = [] -> a = act (th s t) -> pcc (cx s a) = PShut2 -> wkr (th s t) = [] -> trm (th s t) = [] -> slp (th s t) = [] ->
    prel s (Dp t) (cx s (Dp t)) z ev -> 
    eqs s' (let C := cupd (cx s) (Dp t) z in cupd C a (c_cnt (c_pc (C a) PGone) 0 true))
           (upd (th s) t (t_fl (th s t) (shut (th s t)) (flg (th s t)) true)) (hn s) (hb s) (clk s) (EDown t :: ev ++ log s) -> ltr s s' al (Some t)
| ZTop t : al = [] -> act (th s t) = Dp t -> pcc (cx s (Dp t)) = DTop -> shut (th s t) = true ->
    eqs s' (cupd (cx s) (Dp t) (c_pc (cx s (Dp t)) (match wkr (th s t) with [] => DFin | _ => DRel end)))
           (upd (th s) t (t_fl (th s t) true true (gone (th s t)))) (hn s) (hb s) (clk s) (log s) -> ltr s s' al (Some t)
| ZFree t c r z ev : al = [] -> act (th s t) = Dp t -> pcc (cx s (Dp t)) = DRel \/ pcc (cx s (Dp t)) = DFin -> trm (th s t) = c :: r -> term (cx s c) = true ->
    prel s c (cx s c) z ev ->
    eqs s' (cupd (cx s) c z) (upd (th s) t (t_wk (th s t) (wkr (th s t)) r)) (hn s) (hb s) (clk s) (ev ++ log s) -> ltr s s' al (Some t)
| ZSwap t : al = [] -> act (th s t) = Dp t -> pcc (cx s (Dp t)) = DSwap ->
    eqs s' (cupd (cx s) (Dp t) (c_pc (cx s (Dp t)) DDrain)) (upd (th s) t (t_rem (th s t) [] (rrq (th s t)))) (hn s) (hb s) (clk s) (log s) -> ltr s s' al (Some t)
| ZDrain t c r : al = [] -> act (th s t) = Dp t -> pcc (cx s (Dp t)) = DDrain -> tmp (th s t) = c :: r ->
    eqs s' (cx s) (upd (th s) t (t_rq (t_rem (th s t) (rrq (th s t)) r) (rq (th s t) ++ [c]) (sremove c (slp (th s t)))))
        (hn s) (hb s) (clk s) (EAwake t c :: log s) -> ltr s s' al (Some t)
| ZIdle t o : al = [] -> act (th s t) = Dp t -> pcc (cx s (Dp t)) = DIdle o -> flg (th s t) = true \/ (exists tp, o = Some tp /\ tp <= clk s) ->
    eqs s' (cupd (cx s) (Dp t) (c_pc (cx s (Dp t)) DTop)) (upd (th s) t (t_fl (th s t) (shut (th s t)) false (gone (th s t)))) (hn s) (hb s) (clk s) (log s) -> ltr s s' al (Some t)
| ZEnd t : al = [ASys (Kernel.Pick (code (Mn t)) t)] -> act (th s t) = Dp t -> pcc (cx s (Dp t)) = DFin -> trm (th s t) = [] ->
    eqs s' (cupd (cx s) (Dp t) (c_pc (cx s (Dp t)) DGone)) (upd (th s) t (t_run (th s t) (Mn t) (rq (th s t)))) (hn s) (hb s) (clk s) (ERun t (Mn t) :: log s) -> ltr s s' al (Some t).


Lemma ltr_switch s0 s t a p rdy x sl ev al : errs s = [] -> a = act (th s t) -> pout s t a x rdy sl ev -> 
  (forall c, cx s0 c = cupd (cx s) a (c_pc x (pcc (cx s a))) c) -> (forall u, th s0 u = upd (th s) t (t_slp (th s t) sl) u) -> (forall h, hn s0 h = hn s h) -> (forall h, hb s0 h = hb s h) -> clk s0 = clk s -> log s0 = ev ++ log s ->
  pcc x = p -> errs (switch s0 t a p rdy) = [] -> al = preact a p ++ next s t -> ltr s (switch s0 t a p rdy) al (Some t).
Proof.
  intros E0 Ea Po Hc Ht Hh Hb Hk Hl Hp Er Hal. rewrite <- Hp in Hal. unfold switch in *. rewrite Ht, upd_same in *. simpl in *. destruct (rq (th s t)) as [|c r] eqn:Eq; [discriminate Er|].
  assert (F0 : freed (cx s0 c) = false) by (destruct rdy, (freed (cx s0 c)); auto; unfold schedule, check in Er; simpl in Er; try brk_in Er; discriminate Er).
  rewrite F0 in *. assert (F1 : freed (cx s c) = false) by (rewrite Hc in F0; destruct Po; cupds; auto).
  assert (Hx : forall d, cupd (cx s0) a (c_pc (cx s0 a) p) d = cupd (cx s) a x d).
  { intros d. cupds; auto. - rewrite Hc. cupds. subst p. now destruct x. - rewrite Hc. cupds. auto. }
  eapply (ZOut _ _ _ t a x rdy sl ev c r); eauto. destruct rdy.
  - unfold schedule, check in *. simpl in *. brk_in Er; [|discriminate Er]. rewrite ?upd_same. constructor; simpl; intros; auto.
    + tupds; auto. rewrite Ht. now tupds.
    + now rewrite Hl.
  - constructor; simpl; intros; auto.
    + tupds; auto. rewrite Ht. now tupds.
    + now rewrite Hl.
Qed.

Lemma ltr_wake s s0 t a g e k x sl ev al : errs s = [] -> a = act (th s t) -> pwake s t a g e k x sl ev ->
  (forall c, cx s0 c = cupd (cx s) a x c) -> (forall u, th s0 u = upd (th s) t (t_slp (th s t) sl) u) -> (forall h, hn s0 h = hn s h) -> (forall h, hb s0 h = hb s h) -> clk s0 = clk s -> log s0 = ev ++ log s ->
  errs (do_wake s0 t a g e k) = [] -> al = wkact s a g e k -> ltr s (do_wake s0 t a g e k) al (Some t).
Proof.
  intros E0 Ea Pw Hc Ht Hh Hb Hk Hl Er Hal.
  assert (Hp : pcc x = kpc k) by (destruct Pw; auto).
  unfold do_wake in *. destruct (Nat.eqb_spec (ep (cx s0 g)) e) as [Ee|Ee].
  - unfold schedule, check in *. simpl in *. destruct (ctx_eqb_spec a g) as [Eg|Eg]; simpl in *.
    { exfalso. destruct (Nat.eqb (home (cx s0 g)) t); simpl in Er; [brk_in Er|]; discriminate Er. }
    assert (Xg : cx s0 g = cx s g) by (rewrite Hc; cupds; auto). rewrite Xg in *.
    destruct (Nat.eqb_spec (home (cx s g)) t) as [Eh|Eh]; simpl in *.
    + brk_in Er; [|discriminate Er]. eapply (ZWakeL _ _ _ t a g e k x sl ev); eauto. constructor; simpl; intros; auto.
      * cupds; auto; rewrite ?Hc; cupds; auto. rewrite <- Hp. apply c_pc_same.
      * rewrite (Ht t). tupds; auto. rewrite Ht. now tupds.
      * now rewrite Hl.
    + eapply (ZWakeR _ _ _ t a g e k x sl ev); eauto. constructor; simpl; intros; auto.
      * cupds; auto; rewrite ?Hc; cupds; auto.
      * now rewrite Hl.
  - eapply (ZWakeN _ _ _ t a g e k x sl ev); eauto.
    + destruct (ctx_eqb_spec g a); rewrite Hc in Ee; cupds; auto.
    + constructor; simpl; intros; auto. cupds; auto; rewrite ?Hc; cupds; auto. rewrite <- Hp. apply c_pc_same.
Qed.

Lemma ltr_op s t o s' al : al = acts s (LOp t o) -> errs s = [] -> step s (LOp t o) = Some s' -> errs s' = [] -> ltr s s' al (Some t).
Proof.
  intros Ha E0 Hs Er. unfold step in Hs. rewrite E0 in Hs. destruct (pcc (cx s (act (th s t)))) eqn:Ep; try discriminate Hs. unfold start in Hs. destruct o; simpl in Ha.
  - unfold schedule, check in Hs; simpl in Hs. step_brk; clear E3 E4.
    + eapply (ZPost _ _ _ t _ n h (Wk n)); eauto. eqs_tac.
    + eapply (ZDisp _ _ _ t _ n h (Wk n)); eauto. eqs_tac.
  - inv_some Hs. apply switch_errs in Er as E1. apply check_errs in E1. destruct E1 as [_ E1]. rewrite E1 in *. simpl in *. eapply ltr_switch; eauto.
    + now apply OutYield.
    + intros c. cupds; auto. now rewrite c_pc_back.
    + intros u. rewrite t_slp_same. tupds; auto.
    + reflexivity.
    + reflexivity.
  - inv_some Hs. eapply ZArm; eauto. constructor; auto.
  - inv_some Hs. apply switch_errs in Er as E1. simpl in E1. apply check_errs in E1. destruct E1 as [_ E1]. rewrite E1 in *. simpl in *. eapply ltr_switch; eauto.
    + now apply OutWait.
    + intros c. simpl. cupds; auto.
    + intros u. simpl. tupds; auto.
    + reflexivity.
    + reflexivity.
  - inv_some Hs. apply switch_errs in Er as E1. simpl in E1. apply check_errs in E1. destruct E1 as [_ E1]. rewrite E1 in *. simpl in *. eapply ltr_switch; eauto.
    + now apply OutSleep.
    + intros c. simpl. cupds; auto.
    + intros u. simpl. tupds; auto.
    + reflexivity.
    + reflexivity.
  - brk_in Hs; [|discriminate Hs]. inv_some Hs. apply andb_true_iff in E. destruct E as [E1 E2]. apply in_existsb in E1. apply negb_true_iff in E2.
    eapply ltr_wake; eauto.
    + now apply WkUser.
    + intros c. cupds; auto.
    + intros u. rewrite t_slp_same. tupds; auto.
    + reflexivity.
  - brk_in Hs; [discriminate Hs|]. inv_some Hs. brk_in Er.
    + destruct (ctx_eqb_spec c (act (th s t))) as [Ec|Ec].
      * eapply (ZFail _ _ _ t _ h [EJoinRet _ h (Some _) JDeadlock; EJoin _ h]); eauto; [now rewrite Ec|]. rewrite Ec. constructor; auto.
      * eapply (ZCallJoin _ _ _ t _ h c); eauto. eqs_tac.
    + eapply (ZFail _ _ _ t _ h [EJoinRet _ h None JInvalid; EJoin _ h]); eauto. constructor; auto.
  - brk_in Hs; [discriminate Hs|]. inv_some Hs. brk_in Er.
    + apply tr_release in Er; auto. destruct Er as (z & ev & Pz & ->). eapply (ZDetach _ _ _ t _ h c z ev); eauto.
      * simpl in Pz. destruct Pz; [eapply RelMore|eapply RelLast]; eauto.
      * constructor; auto.
    + eapply (ZFail _ _ _ t _ h [EDetach _ h None JInvalid]); eauto. constructor; auto.
  - brk_in Hs; [discriminate Hs|]. apply orb_false_iff in E. destruct E as [E E3]. apply orb_false_iff in E. destruct E as [E1 E2]. apply Nat.eqb_neq in E3.
    brk_in Hs; [discriminate Hs|]. inv_some Hs. eapply (ZMove _ _ _ t _ h1 h2); eauto. constructor; auto.
  - destruct (act (th s t)) eqn:Ea; try discriminate Hs. inv_some Hs. eapply (ZPc _ _ _ t _ PExit [EFin (Wk n)]); eauto; [rewrite Ea; eapply MExit; eauto|]. rewrite Ea. constructor; auto.
  - destruct (act (th s t)) eqn:Ea; try discriminate Hs. inv_some Hs. eapply (ZShut _ _ _ t t0); eauto. constructor; auto.
Qed.

Lemma ltr_run s t s' al : al = acts s (LRun t) -> errs s = [] -> step s (LRun t) = Some s' -> errs s' = [] -> ltr s s' al (Some t).
Proof.
  intros Ha E0 Hs Er. unfold step in Hs. rewrite E0 in Hs. unfold run in Hs.
  assert (HD : ctx_eqb (act (th s t)) (Dp t) = true -> pcc (cx s (act (th s t))) = pcc (cx s (Dp t)) /\ act (th s t) = Dp t).
  { intros H. destruct (ctx_eqb_spec (act (th s t)) (Dp t)) as [E|]; [rewrite E; auto|discriminate H]. }
  unfold acts in Ha. destruct (pcc (cx s (act (th s t)))) eqn:Ep.
  all: try (brk_in Hs; [|discriminate Hs]; destruct (HD eq_refl) as [HD1 HD2]; unfold dstep in Hs; rewrite <- HD1 in Hs; try discriminate Hs).
  - inv_some Hs. eapply (ZPc _ _ _ t); eauto; [now apply MNew|]. constructor; auto.
  - inv_some Hs. eapply ltr_switch; eauto.
    + eapply OutArmed; eauto.
    + intros c. cupds; auto. now rewrite c_pc_back.
    + intros u. rewrite t_slp_same. tupds; auto.
    + reflexivity.
    + reflexivity.
  - destruct w.
    + inv_some Hs. eapply (ZPc _ _ _ t); eauto; [eapply MBlock; eauto|]. constructor; auto.
    + inv_some Hs. eapply (ZPc _ _ _ t); eauto; [eapply MTimed; eauto|]. constructor; auto.
    + inv_some Hs. eapply (ZPc _ _ _ t); eauto; [eapply MSleep; eauto|]. constructor; auto.
    + inv_some Hs. simpl in Er. apply check_errs in Er. destruct Er as [_ Er]. rewrite Er. simpl. eapply (ZPc _ _ _ t); eauto; [eapply MJoin; eauto|constructor; auto].
      apply negb_true_iff in Er. intros Hi. rewrite <- not_true_iff_false in Er. apply Er, existsb_exists. exists (act (th s t), e). split; auto. simpl. now rewrite ctx_eqb_refl, Nat.eqb_refl.
  - inv_some Hs. eapply (ZPc _ _ _ t); eauto; [now apply MYield|]. constructor; auto.
  - brk_in Hs; inv_some Hs; [discriminate Er|]. destruct (shut (th s (home (cx s g)))) eqn:Esh; simpl in Er; apply check_errs in Er; destruct Er as [_ Er]; rewrite Er; simpl.
    + eapply (ZPush _ _ _ t _ g k _ [EShutAssert _]); eauto; [now rewrite Esh|]. constructor; auto.
    + eapply (ZPush _ _ _ t _ g k _ []); eauto; [now rewrite Esh|]. constructor; auto.
  - brk_in Hs; inv_some Hs; [discriminate Er|]. eapply (ZNote _ _ _ t _ u k); eauto. constructor; simpl; intros; auto. tupds; simpl; congruence.
  - brk_in Hs; [inv_some Hs; discriminate Er|]. brk_in Hs; [discriminate Hs|]. brk_in Hs; inv_some Hs.
    + eapply (ZPc _ _ _ t); eauto; [eapply MTerm; eauto|]. constructor; auto.
    + unfold switch in *. simpl in *. brk_in Er; [discriminate Er|]. brk_in Er; [discriminate Er|]. 
      assert (Fd : freed (cx s c0) = false) by (cupds; simpl in *; auto; congruence).
      eapply (ZJoin _ _ _ t _ h c _ c0 l); eauto. constructor; simpl; intros; auto. cupds; auto.
  - inv_some Hs. apply tr_release in Er; auto. destruct Er as (z & ev & Pz & ->). eapply (ZRel _ _ _ t _ h c z ev); eauto.
    + simpl in Pz. destruct Pz; [eapply RelMore|eapply RelLast]; eauto.
    + constructor; auto.
  - brk_in Hs; [discriminate Hs|]. inv_some Hs. eapply (ZExit _ _ _ t); eauto. constructor; auto.
  - destruct (wtq (cx s (act (th s t)))) as [|[g e] q] eqn:Eq.
    + inv_some Hs. simpl in Er. apply check_errs in Er. destruct Er as [_ Er]. rewrite Er. simpl. apply andb_true_iff in Er. destruct Er. eapply (ZLeave _ _ _ t); eauto. constructor; auto.
    + brk_in Hs; inv_some Hs; [discriminate Er|]. eapply ltr_wake; eauto.
      * eapply WkTerm; eauto.
      * intros c. simpl. cupds; auto.
      * intros u. rewrite t_slp_same. tupds; auto.
      * reflexivity.
  - inv_some Hs. eapply ltr_switch; eauto.
    + eapply OutLeave; eauto.
    + intros c. cupds; auto. now rewrite c_pc_back.
    + intros u. rewrite t_slp_same. tupds; auto.
    + reflexivity.
    + reflexivity.
  - inv_some Hs. eapply ltr_switch; eauto.
    + eapply OutShut; eauto.
    + intros c. cupds; auto. now rewrite c_pc_back.
    + intros u. rewrite t_slp_same. tupds; auto.
    + reflexivity.
    + reflexivity.
  - inv_some Hs. simpl in Er.
    assert (Hb : match wkr (th s t), trm (th s t), slp (th s t) with [], [], [] => negb (ready_linked s (Dp t)) | _, _, _ => false end = true).
    { unfold check in Er. destruct (match wkr (th s t) with [] => _ | _ => _ end) eqn:E in Er; [rewrite E; auto|]. exfalso. unfold release in Er. simpl in Er. unfold check in Er. simpl in Er. repeat brk_in Er; discriminate Er. }
    rewrite Hb in *. simpl in *. destruct (wkr (th s t)) eqn:E1, (trm (th s t)) eqn:E2, (slp (th s t)) eqn:E3; try discriminate Hb.
    apply tr_release in Er; auto. destruct Er as (z & ev & Pz & ->). simpl. eapply (ZDown _ _ _ t _ z ev); eauto.
    + simpl in Pz. destruct Pz; [eapply RelMore|eapply RelLast]; eauto.
    + constructor; auto.
  - brk_in Hs.
    + inv_some Hs. eapply (ZTop _ _ _ t); eauto. constructor; auto.
    + inv_some Hs. eapply (ZPc _ _ _ t _ DRel []); eauto; [rewrite HD2 in *; now apply MTop|]. rewrite HD2 in *. constructor; auto.
  - destruct (trm (th s t)) as [|c r] eqn:Et; inv_some Hs.
    + eapply (ZPc _ _ _ t _ DSwap []); eauto; [rewrite HD2 in *; now apply MRel|]. rewrite HD2 in *. constructor; auto.
    + destruct (tr_front s t c r _ E0 Et eq_refl Er) as (X1 & z & ev & X2 & X3). eapply (ZFree _ _ _ t c r z ev); eauto.
  - inv_some Hs. eapply (ZSwap _ _ _ t); eauto. constructor; auto.
  - destruct (tmp (th s t)) as [|c r] eqn:Et; inv_some Hs.
    + eapply (ZPc _ _ _ t _ (DSleep (clk s)) []); eauto; [rewrite HD2 in *; now apply MDrain|]. rewrite HD2 in *. constructor; auto.
    + unfold schedule in *. simpl in *. apply check_errs in Er. destruct Er as [_ Er]. rewrite Er. simpl. eapply (ZDrain _ _ _ t c r); eauto. eqs_tac.
  - destruct (slp (th s t)) as [|[[tp c] e] r] eqn:Et.
    + inv_some Hs. eapply (ZPc _ _ _ t _ DPick []); eauto; [rewrite HD2 in *; eapply MSlp; eauto; now rewrite Et|]. rewrite HD2 in *. constructor; auto.
    + destruct (Nat.leb_spec tp nw) as [El|El]; inv_some Hs.
      * rewrite HD2 in *. eapply ltr_wake; eauto.
        -- eapply WkDisp; eauto.
        -- intros d. simpl. cupds; auto.
        -- intros u. simpl. tupds; auto.
        -- reflexivity.
      * eapply (ZPc _ _ _ t _ DPick []); eauto; [rewrite HD2 in *; eapply MSlp; eauto; now rewrite Et|]. rewrite HD2 in *. constructor; auto.
  - destruct (rq (th s t)) eqn:Eq; inv_some Hs.
    + unfold next in Ha. rewrite Eq in Ha. eapply (ZPc _ _ _ t _ _ []); eauto; [rewrite HD2 in *; eapply MIdle; eauto|]. rewrite HD2 in *. constructor; auto.
    + rewrite HD2 in *. eapply ltr_switch; eauto.
      * eapply OutDisp; eauto.
      * intros c0. cupds; auto. now rewrite c_pc_back.
      * intros u. rewrite t_slp_same. tupds; auto.
      * reflexivity.
      * reflexivity.
  - inv_some Hs. eapply (ZPc _ _ _ t _ DTop []); eauto; [rewrite HD2 in *; now apply MRes|]. rewrite HD2 in *. constructor; auto.
  - match type of Hs with (if ?b then _ else _) = _ => destruct b eqn:E1 end; [|discriminate Hs]. inv_some Hs. apply orb_true_iff in E1. eapply (ZIdle _ _ _ t); eauto.
    + destruct E1 as [E1|E1]; auto. destruct o as [tp|]; [|discriminate E1]. apply Nat.leb_le in E1. eauto.
    + constructor; auto.
  - destruct (trm (th s t)) as [|c r] eqn:Et; inv_some Hs.
    + eapply (ZEnd _ _ _ t); eauto. constructor; auto.
    + destruct (tr_front s t c r _ E0 Et eq_refl Er) as (X1 & z & ev & X2 & X3). eapply (ZFree _ _ _ t c r z ev); eauto.
Qed.

Theorem step_ltr s l s' : step s l = Some s' -> errs s' = [] -> errs s = [] /\ ltr s s' (acts s l) (thread_of l).
Proof.
  intros Hs Er. assert (E0 : errs s = []) by (unfold step in Hs; destruct (errs s); [auto|discriminate Hs]). split; auto.
  destruct l as [t o|t|d]; [eapply ltr_op; eauto|eapply ltr_run; eauto|]. unfold step in Hs. rewrite E0 in Hs. inv_some Hs. eapply (ZTick _ _ _ d); [reflexivity|]. constructor; auto.
Qed.
