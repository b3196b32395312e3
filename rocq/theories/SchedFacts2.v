(** Proofs about the scheduler: the steps without error, with the assertions they have passed. *)
From Coq Require Import List Arith Bool Lia.
From Verif Require Import Base Sched SchedFacts.
Import ListNotations.

Lemma some_inj {A} (x y : A) : Some x = Some y -> x = y.
Proof. congruence. Qed.

Record eqs (s' : state) (C : ctx -> cst) (T : tid -> tst) (H : nat -> option ctx) (B : nat -> bool) (k : nat) (lg : list event) : Prop := {
  q_cx : forall c, cx s' c = C c;
  q_th : forall t, th s' t = T t;
  q_hn : forall h, hn s' h = H h;
  q_hb : forall h, hb s' h = B h;
  q_clk : clk s' = k;
  q_log : log s' = lg
}.

(** The active context goes on without changing anything else. *)
Inductive pmove (s : state) (t : tid) (a : ctx) : pc -> list event -> Prop :=
| MNew : pcc (cx s a) = PNew -> pmove s t a PIdle [EStart a]
| MYield : pcc (cx s a) = PYield -> pmove s t a PIdle []
| MBlock e : pcc (cx s a) = PSusp e WBlock -> pmove s t a PIdle []
| MTimed e tp : pcc (cx s a) = PSusp e (WTimed tp) -> pmove s t a PIdle [EWaitRet a tp (clk s) (Nat.ltb (clk s) tp)]
| MSleep e tp : pcc (cx s a) = PSusp e (WSleep tp) -> pmove s t a PIdle [ESleepRet a tp (clk s)]
| MJoin e h c : pcc (cx s a) = PSusp e (WJoin h c) -> ~ In (a, e) (wtq (cx s c)) -> pmove s t a (PRel h c) []
| MTerm h c : pcc (cx s a) = PJoin h c -> freed (cx s c) = false -> lkd (cx s c) = false -> term (cx s c) = true -> pmove s t a (PRel h c) []
| MExit n : pcc (cx s a) = PIdle -> a = Wk n -> pmove s t a PExit [EFin a]
| MRes : pcc (cx s a) = DRes -> pmove s t a DTop []
| MTop : pcc (cx s a) = DTop -> shut (th s t) = false -> pmove s t a DRel []
| MRel : pcc (cx s a) = DRel -> trm (th s t) = [] -> pmove s t a DSwap []
| MDrain : pcc (cx s a) = DDrain -> tmp (th s t) = [] -> pmove s t a (DSleep (clk s)) []
| MSlp nw : pcc (cx s a) = DSleep nw -> match slp (th s t) with [] => True | (tp, _, _) :: _ => nw < tp end -> pmove s t a DPick []
| MIdle : pcc (cx s a) = DPick -> rq (th s t) = [] -> pmove s t a (DIdle (match slp (th s t) with [] => None | (tp, _, _) :: _ => Some tp end)) [].

(** The active context is switched out: its new state, whether it is ready, the new sleep queue, events. *)
Inductive pout (s : state) (t : tid) (a : ctx) : cst -> bool -> list (nat * ctx * nat) -> list event -> Prop :=
| OutYield : pcc (cx s a) = PIdle -> unlinked s a = true -> pout s t a (c_pc (cx s a) PYield) true (slp (th s t)) []
| OutDisp : pcc (cx s a) = DPick -> pout s t a (c_pc (cx s a) DRes) true (slp (th s t)) []
| OutWait tp e : pcc (cx s a) = PIdle -> unlinked s a = true -> e = S (ep (cx s a)) ->
    pout s t a (c_pc (c_iss (c_ep (cx s a) e) (e :: iss (cx s a))) (PSusp e (WTimed tp))) false (sinsert (tp, a, e) (slp (th s t))) [EWait a tp]
| OutSleep tp e : pcc (cx s a) = PIdle -> unlinked s a = true -> e = S (ep (cx s a)) ->
    pout s t a (c_pc (c_ep (cx s a) e) (PSusp e (WSleep tp))) false (sinsert (tp, a, e) (slp (th s t))) [ESleep a tp]
| OutArmed e : pcc (cx s a) = PArmed e -> pout s t a (c_pc (cx s a) (PSusp e WBlock)) false (slp (th s t)) []
| OutLeave : pcc (cx s a) = PLeave -> pout s t a (c_pc (cx s a) PDead) false (slp (th s t)) []
| OutShut : pcc (cx s a) = PShut -> pout s t a (c_pc (cx s a) PShut2) false (slp (th s t)) [].

(** The active context wakes [g] with epoch [e]: its state and the sleep queue before the wake-up itself, events. *)
Inductive pwake (s : state) (t : tid) (a g : ctx) (e : nat) : kont -> cst -> list (nat * ctx * nat) -> list event -> Prop :=
| WkUser : pcc (cx s a) = PIdle -> In e (iss (cx s g)) -> freed (cx s g) = false -> pwake s t a g e KUser (cx s a) (slp (th s t)) []
| WkTerm q : pcc (cx s a) = PTerm -> wtq (cx s a) = (g, e) :: q -> freed (cx s g) = false ->
    pwake s t a g e KTerm (c_wtq (cx s a) q) (slp (th s t)) []
| WkDisp nw tp r : pcc (cx s a) = DSleep nw -> slp (th s t) = (tp, g, e) :: r -> tp <= nw ->
    pwake s t a g e (KDisp nw) (cx s a) r [ETimer t g tp nw].

(** A reference is dropped. *)
Inductive prel (s : state) (c : ctx) (z : cst) : cst -> list event -> Prop :=
| RelMore n : freed z = false -> cnt z = S (S n) -> prel s c z (c_cnt z (S n) false) []
| RelLast : freed z = false -> cnt z = 1 -> wtq z = [] -> prel s c z (c_cnt z 0 true) [EFree c].

Inductive tr (s s' : state) : Prop :=
| TTick d : eqs s' (cx s) (th s) (hn s) (hb s) (clk s + S d) (log s) -> tr s s'
| TFail t a h ev : a = act (th s t) -> pcc (cx s a) = PIdle -> hb s h = false ->
    (hn s h = None /\ (ev = [EJoinRet a h None JInvalid; EJoin a h] \/ ev = [EDetach a h None JInvalid])) \/
    (hn s h = Some a /\ ev = [EJoinRet a h (Some a) JDeadlock; EJoin a h]) ->
    eqs s' (cx s) (th s) (hn s) (hb s) (clk s) (ev ++ log s) -> tr s s'
| TPc t a p ev : a = act (th s t) -> pmove s t a p ev ->
    eqs s' (cupd (cx s) a (c_pc (cx s a) p)) (th s) (hn s) (hb s) (clk s) (ev ++ log s) -> tr s s'
| TPost t a n h c : a = act (th s t) -> pcc (cx s a) = PIdle -> c = Wk n -> pcc (cx s c) = PNone -> hn s h = None -> hb s h = false ->
    eqs s' (cupd (cx s) c (new_worker t))
           (upd (th s) t (t_rq (t_wk (th s t) (wkr (th s t) ++ [c]) (trm (th s t))) (rq (th s t) ++ [c]) (sremove c (slp (th s t)))))
           (upd (hn s) h (Some c)) (upd (hb s) h false) (clk s) (EAwake t c :: ELaunch a Post h c :: log s) -> tr s s'
| TDisp t a n h c : a = act (th s t) -> pcc (cx s a) = PIdle -> c = Wk n -> pcc (cx s c) = PNone -> hn s h = None -> hb s h = false ->
    eqs s' (cupd (cupd (cx s) c (new_worker t)) a (c_pc (cx s a) PYield))
           (upd (th s) t (t_run (t_rq (t_wk (th s t) (wkr (th s t) ++ [c]) (trm (th s t))) (rq (th s t)) (sremove a (slp (th s t)))) c (rq (th s t) ++ [a])))
           (upd (hn s) h (Some c)) (upd (hb s) h false) (clk s) (EAwake t a :: ERun t c :: ELaunch a Dispatch h c :: log s) -> tr s s'
| TOut t a x rdy sl ev c r : a = act (th s t) -> pout s t a x rdy sl ev -> rq (th s t) = c :: r -> freed (cx s c) = false ->
    eqs s' (cupd (cx s) a x)
           (upd (th s) t (if rdy then t_run (t_slp (th s t) (sremove a sl)) c (r ++ [a]) else t_run (t_slp (th s t) sl) c r))
           (hn s) (hb s) (clk s) ((if rdy then [EAwake t a] else []) ++ ERun t c :: EPick t c :: ev ++ log s) -> tr s s'
| TArm t a e : a = act (th s t) -> pcc (cx s a) = PIdle -> e = S (ep (cx s a)) ->
    eqs s' (cupd (cx s) a (c_pc (c_iss (c_ep (cx s a) e) (e :: iss (cx s a))) (PArmed e))) (th s) (hn s) (hb s) (clk s) (log s) -> tr s s'
| TWakeN t a g e k x sl ev : a = act (th s t) -> pwake s t a g e k x sl ev -> ep (if ctx_eqb g a then x else cx s g) <> e ->
    eqs s' (cupd (cx s) a x) (upd (th s) t (t_slp (th s t) sl)) (hn s) (hb s) (clk s) (ev ++ log s) -> tr s s'
| TWakeL t a g e k x sl ev : a = act (th s t) -> pwake s t a g e k x sl ev -> a <> g -> ep (cx s g) = e -> home (cx s g) = t ->
    eqs s' (cupd (cupd (cx s) a x) g (c_ep (cx s g) (S e))) (upd (th s) t (t_rq (th s t) (rq (th s t) ++ [g]) (sremove g sl)))
           (hn s) (hb s) (clk s) (EAwake t g :: EWake g e :: ev ++ log s) -> tr s s'
| TWakeR t a g e k x sl ev : a = act (th s t) -> pwake s t a g e k x sl ev -> a <> g -> ep (cx s g) = e -> home (cx s g) <> t ->
    eqs s' (cupd (cupd (cx s) a (c_pc x (PPush g k))) g (c_ep (cx s g) (S e))) (upd (th s) t (t_slp (th s t) sl))
           (hn s) (hb s) (clk s) (EWake g e :: ev ++ log s) -> tr s s'
| TPush t a g k u ev : a = act (th s t) -> pcc (cx s a) = PPush g k -> u = home (cx s g) -> gone (th s u) = false ->
    ev = (if shut (th s u) then [EShutAssert u] else []) ->
    eqs s' (cupd (cx s) a (c_pc (cx s a) (PNote u k))) (upd (th s) u (t_rem (th s u) (rrq (th s u) ++ [g]) (tmp (th s u))))
           (hn s) (hb s) (clk s) (ev ++ log s) -> tr s s'
| TNote t a u k : a = act (th s t) -> pcc (cx s a) = PNote u k -> gone (th s u) = false ->
    eqs s' (cupd (cx s) a (c_pc (cx s a) (kpc k))) (upd (th s) u (t_fl (th s u) (shut (th s u)) true (gone (th s u)))) (hn s) (hb s) (clk s) (log s) -> tr s s'
| TCallJoin t a h c : a = act (th s t) -> pcc (cx s a) = PIdle -> hb s h = false -> hn s h = Some c -> c <> a ->
    eqs s' (cupd (cx s) a (c_pc (cx s a) (PJoin h c))) (th s) (hn s) (upd (hb s) h true) (clk s) (EJoin a h :: log s) -> tr s s'
| TJoin t a h c e d r : a = act (th s t) -> pcc (cx s a) = PJoin h c -> freed (cx s c) = false -> lkd (cx s c) = false -> term (cx s c) = false ->
    e = S (ep (cx s a)) -> rq (th s t) = d :: r -> freed (cx s d) = false ->
    eqs s' (let C := cupd (cx s) c (c_wtq (cx s c) (wtq (cx s c) ++ [(a, e)])) in cupd C a (c_pc (c_ep (C a) e) (PSusp e (WJoin h c))))
           (upd (th s) t (t_run (th s t) d r)) (hn s) (hb s) (clk s) (ERun t d :: EPick t d :: log s) -> tr s s'
| TRel t a h c z ev : a = act (th s t) -> pcc (cx s a) = PRel h c -> prel s c (cupd (cx s) a (c_pc (cx s a) PIdle) c) z ev ->
    eqs s' (cupd (cupd (cx s) a (c_pc (cx s a) PIdle)) c z) (th s) (upd (hn s) h None) (upd (hb s) h false) (clk s)
           (ev ++ EJoinRet a h (Some c) JOk :: log s) -> tr s s'
| TDetach t a h c z ev : a = act (th s t) -> pcc (cx s a) = PIdle -> hb s h = false -> hn s h = Some c -> prel s c (cx s c) z ev ->
    eqs s' (cupd (cx s) c z) (th s) (upd (hn s) h None) (upd (hb s) h false) (clk s) (ev ++ EDetach a h (Some c) JOk :: log s) -> tr s s'
| TMove t a h1 h2 : a = act (th s t) -> pcc (cx s a) = PIdle -> hb s h1 = false -> hb s h2 = false -> h1 <> h2 -> hn s h2 = None ->
    eqs s' (cx s) (th s) (upd (upd (hn s) h2 (hn s h1)) h1 None) (upd (upd (hb s) h2 false) h1 false) (clk s) (EMove h1 h2 :: log s) -> tr s s'
| TShut t u : act (th s t) = Mn u -> pcc (cx s (Mn u)) = PIdle ->
    eqs s' (cupd (cx s) (Mn u) (c_pc (cx s (Mn u)) PShut)) (upd (th s) t (t_fl (th s t) true (flg (th s t)) (gone (th s t)))) (hn s) (hb s) (clk s) (log s) -> tr s s'
| TExit t a : a = act (th s t) -> pcc (cx s a) = PExit -> lkd (cx s a) = false ->
    eqs s' (cupd (cx s) a (c_pc (c_term (cx s a) true true) PTerm)) (th s) (hn s) (hb s) (clk s) (log s) -> tr s s'
| TLeave t a : a = act (th s t) -> pcc (cx s a) = PTerm -> wtq (cx s a) = [] -> unlinked s a = true -> worker_linked s a = true ->
    eqs s' (cupd (cx s) a (c_pc (c_term (cx s a) true false) PLeave)) (upd (th s) t (t_wk (th s t) (remove a (wkr (th s t))) (trm (th s t) ++ [a])))
           (hn s) (hb s) (clk s) (ELeft a :: log s) -> tr s s'
| TDown t a z ev : a = act (th s t) -> pcc (cx s a) = PShut2 -> wkr (th s t) = [] -> trm (th s t) = [] -> slp (th s t) = [] ->
    prel s (Dp t) (cx s (Dp t)) z ev -> 
    eqs s' (let C := cupd (cx s) (Dp t) z in cupd C a (c_cnt (c_pc (C a) PGone) 0 true))
           (upd (th s) t (t_fl (th s t) (shut (th s t)) (flg (th s t)) true)) (hn s) (hb s) (clk s) (EDown t :: ev ++ log s) -> tr s s'
| TTop t : act (th s t) = Dp t -> pcc (cx s (Dp t)) = DTop -> shut (th s t) = true ->
    eqs s' (cupd (cx s) (Dp t) (c_pc (cx s (Dp t)) (match wkr (th s t) with [] => DFin | _ => DRel end)))
           (upd (th s) t (t_fl (th s t) true true (gone (th s t)))) (hn s) (hb s) (clk s) (log s) -> tr s s'
| TFree t c r z ev : act (th s t) = Dp t -> pcc (cx s (Dp t)) = DRel \/ pcc (cx s (Dp t)) = DFin -> trm (th s t) = c :: r -> term (cx s c) = true ->
    prel s c (cx s c) z ev ->
    eqs s' (cupd (cx s) c z) (upd (th s) t (t_wk (th s t) (wkr (th s t)) r)) (hn s) (hb s) (clk s) (ev ++ log s) -> tr s s'
| TSwap t : act (th s t) = Dp t -> pcc (cx s (Dp t)) = DSwap ->
    eqs s' (cupd (cx s) (Dp t) (c_pc (cx s (Dp t)) DDrain)) (upd (th s) t (t_rem (th s t) [] (rrq (th s t)))) (hn s) (hb s) (clk s) (log s) -> tr s s'
| TDrain t c r : act (th s t) = Dp t -> pcc (cx s (Dp t)) = DDrain -> tmp (th s t) = c :: r ->
    eqs s' (cx s) (upd (th s) t (t_rq (t_rem (th s t) (rrq (th s t)) r) (rq (th s t) ++ [c]) (sremove c (slp (th s t)))))
        (hn s) (hb s) (clk s) (EAwake t c :: log s) -> tr s s'
| TIdle t o : act (th s t) = Dp t -> pcc (cx s (Dp t)) = DIdle o -> flg (th s t) = true \/ (exists tp, o = Some tp /\ tp <= clk s) ->
    eqs s' (cupd (cx s) (Dp t) (c_pc (cx s (Dp t)) DTop)) (upd (th s) t (t_fl (th s t) (shut (th s t)) false (gone (th s t)))) (hn s) (hb s) (clk s) (log s) -> tr s s'
| TEnd t : act (th s t) = Dp t -> pcc (cx s (Dp t)) = DFin -> trm (th s t) = [] ->
    eqs s' (cupd (cx s) (Dp t) (c_pc (cx s (Dp t)) DGone)) (upd (th s) t (t_run (th s t) (Mn t) (rq (th s t)))) (hn s) (hb s) (clk s) (ERun t (Mn t) :: log s) -> tr s s'.

(** ** Every step without error is one of them *)
Lemma eqs_refl s : eqs s (cx s) (th s) (hn s) (hb s) (clk s) (log s).
Proof. constructor; auto. Qed.

Ltac brk_in H :=
  match type of H with
  | context [match ?x with _ => _ end] =>
      match x with
      | context [match _ with _ => _ end] => fail 1
      | _ => let E := fresh "E" in destruct x eqn:E
      end
  end.
Ltac inv_some H := match type of H with Some ?x = Some ?y => is_var y; apply some_inj in H; subst y end.
Ltac step_brk :=
  repeat match goal with
  | H : None = Some _ |- _ => discriminate H
  | H : _ :: _ = [] |- _ => discriminate H
  | H : Some _ = Some ?y |- _ => is_var y; apply some_inj in H; subst y
  | H : _ = Some ?y |- _ => is_var y; brk_in H
  | H : errs _ = [] |- _ => progress simpl in H
  | H : errs _ = [] |- _ => brk_in H
  end.

Ltac eqs_tac := constructor; simpl; intros; auto; cupds; tupds; simpl; auto; try congruence.

Lemma in_existsb (e : nat) l : existsb (Nat.eqb e) l = true -> In e l.
Proof. intros H. apply existsb_exists in H. destruct H as (x & H & E). apply Nat.eqb_eq in E. now subst. Qed.

Lemma tr_switch s0 s t a p rdy x sl ev : errs s = [] -> a = act (th s t) -> pout s t a x rdy sl ev -> 
  (forall c, cx s0 c = cupd (cx s) a (c_pc x (pcc (cx s a))) c) -> (forall u, th s0 u = upd (th s) t (t_slp (th s t) sl) u) -> (forall h, hn s0 h = hn s h) -> (forall h, hb s0 h = hb s h) -> clk s0 = clk s -> log s0 = ev ++ log s ->
  pcc x = p -> errs (switch s0 t a p rdy) = [] -> tr s (switch s0 t a p rdy).
Proof.
  intros E0 Ea Po Hc Ht Hh Hb Hk Hl Hp Er. unfold switch in *. rewrite Ht, upd_same in *. simpl in *. destruct (rq (th s t)) as [|c r] eqn:Eq; [discriminate Er|].
  assert (F0 : freed (cx s0 c) = false) by (destruct rdy, (freed (cx s0 c)); auto; unfold schedule, check in Er; simpl in Er; try brk_in Er; discriminate Er).
  rewrite F0 in *. assert (F1 : freed (cx s c) = false) by (rewrite Hc in F0; destruct Po; cupds; auto).
  assert (Hx : forall d, cupd (cx s0) a (c_pc (cx s0 a) p) d = cupd (cx s) a x d).
  { intros d. cupds; auto. - rewrite Hc. cupds. subst p. now destruct x. - rewrite Hc. cupds. auto. }
  eapply (TOut _ _ t a x rdy sl ev c r); eauto. destruct rdy.
  - unfold schedule, check in *. simpl in *. brk_in Er; [|discriminate Er]. rewrite ?upd_same. constructor; simpl; intros; auto.
    + tupds; auto. rewrite Ht. now tupds.
    + now rewrite Hl.
  - constructor; simpl; intros; auto.
    + tupds; auto. rewrite Ht. now tupds.
    + now rewrite Hl.
Qed.

Lemma c_pc_same x : c_pc x (pcc x) = x.
Proof. now destruct x. Qed.
Lemma c_pc_back x p : c_pc (c_pc x p) (pcc x) = x.
Proof. now destruct x. Qed.
Lemma t_slp_same x : t_slp x (slp x) = x.
Proof. now destruct x. Qed.

Lemma check_errs b s : errs (check b s) = [] -> errs s = [] /\ b = true.
Proof. unfold check. destruct b; simpl; [auto|discriminate]. Qed.

Lemma switch_errs s t a p rdy : errs (switch s t a p rdy) = [] -> errs s = [].
Proof.
  unfold switch. destruct (rq (th s t)); simpl; [discriminate|]. destruct rdy, (freed (cx s c)); unfold schedule, check; simpl; try discriminate; auto.
  all: match goal with |- context [if ?b then _ else _] => destruct b end; simpl; try discriminate; auto.
Qed.

Lemma tr_wake s s0 t a g e k x sl ev : errs s = [] -> a = act (th s t) -> pwake s t a g e k x sl ev ->
  (forall c, cx s0 c = cupd (cx s) a x c) -> (forall u, th s0 u = upd (th s) t (t_slp (th s t) sl) u) -> (forall h, hn s0 h = hn s h) -> (forall h, hb s0 h = hb s h) -> clk s0 = clk s -> log s0 = ev ++ log s ->
  errs (do_wake s0 t a g e k) = [] -> tr s (do_wake s0 t a g e k).
Proof.
  intros E0 Ea Pw Hc Ht Hh Hb Hk Hl Er.
  assert (Hp : pcc x = kpc k) by (destruct Pw; auto).
  unfold do_wake in *. destruct (Nat.eqb_spec (ep (cx s0 g)) e) as [Ee|Ee].
  - unfold schedule, check in *. simpl in *. destruct (ctx_eqb_spec a g) as [Eg|Eg]; simpl in *.
    { exfalso. destruct (Nat.eqb (home (cx s0 g)) t); simpl in Er; [brk_in Er|]; discriminate Er. }
    assert (Xg : cx s0 g = cx s g) by (rewrite Hc; cupds; auto). rewrite Xg in *.
    destruct (Nat.eqb_spec (home (cx s g)) t) as [Eh|Eh]; simpl in *.
    + brk_in Er; [|discriminate Er]. eapply (TWakeL _ _ t a g e k x sl ev); eauto. constructor; simpl; intros; auto.
      * cupds; auto; rewrite ?Hc; cupds; auto. rewrite <- Hp. apply c_pc_same.
      * rewrite (Ht t). tupds; auto. rewrite Ht. now tupds.
      * now rewrite Hl.
    + eapply (TWakeR _ _ t a g e k x sl ev); eauto. constructor; simpl; intros; auto.
      * cupds; auto; rewrite ?Hc; cupds; auto.
      * now rewrite Hl.
  - eapply (TWakeN _ _ t a g e k x sl ev); eauto.
    + destruct (ctx_eqb_spec g a); rewrite Hc in Ee; cupds; auto.
    + constructor; simpl; intros; auto. cupds; auto; rewrite ?Hc; cupds; auto. rewrite <- Hp. apply c_pc_same.
Qed.

Lemma tr_release s0 c : errs s0 = [] -> errs (release s0 c) = [] ->
  exists z ev, prel s0 c (cx s0 c) z ev /\ release s0 c = mkS (cupd (cx s0) c z) (th s0) (hn s0) (hb s0) (clk s0) (errs s0) (ev ++ log s0).
Proof.
  intros E0 Er. unfold release in *. destruct (freed (cx s0 c)) eqn:Ef; [discriminate Er|]. destruct (cnt (cx s0 c)) as [|[|n]] eqn:En; [discriminate Er| |].
  - simpl in Er. apply check_errs in Er. destruct Er as [_ E]. rewrite E. simpl. apply andb_true_iff in E. destruct E as [_ E].
    eexists _, [EFree c]. split; [apply RelLast; auto; destruct (wtq (cx s0 c)); auto; discriminate E|]. reflexivity.
  - eexists _, []. split; [eapply RelMore; eauto|]. reflexivity.
Qed.

Lemma tr_op s t o s' : errs s = [] -> step s (LOp t o) = Some s' -> errs s' = [] -> tr s s'.
Proof.
  intros E0 Hs Er. unfold step in Hs. rewrite E0 in Hs. destruct (pcc (cx s (act (th s t)))) eqn:Ep; try discriminate Hs. unfold start in Hs. destruct o.
  - unfold schedule, check in Hs; simpl in Hs. step_brk; clear E3 E4.
    + eapply (TPost _ _ t _ n h (Wk n)); eauto. eqs_tac.
    + eapply (TDisp _ _ t _ n h (Wk n)); eauto. eqs_tac.
  - inv_some Hs. apply switch_errs in Er as E1. apply check_errs in E1. destruct E1 as [_ E1]. rewrite E1 in *. simpl in *. eapply tr_switch; eauto.
    + now apply OutYield.
    + intros c. cupds; auto. now rewrite c_pc_back.
    + intros u. rewrite t_slp_same. tupds; auto.
    + reflexivity.
    + reflexivity.
  - inv_some Hs. eapply TArm; eauto. constructor; auto.
  - inv_some Hs. apply switch_errs in Er as E1. simpl in E1. apply check_errs in E1. destruct E1 as [_ E1]. rewrite E1 in *. simpl in *. eapply tr_switch; eauto.
    + now apply OutWait.
    + intros c. simpl. cupds; auto.
    + intros u. simpl. tupds; auto.
    + reflexivity.
    + reflexivity.
  - inv_some Hs. apply switch_errs in Er as E1. simpl in E1. apply check_errs in E1. destruct E1 as [_ E1]. rewrite E1 in *. simpl in *. eapply tr_switch; eauto.
    + now apply OutSleep.
    + intros c. simpl. cupds; auto.
    + intros u. simpl. tupds; auto.
    + reflexivity.
    + reflexivity.
  - brk_in Hs; [|discriminate Hs]. inv_some Hs. apply andb_true_iff in E. destruct E as [E1 E2]. apply in_existsb in E1. apply negb_true_iff in E2.
    eapply tr_wake; eauto.
    + now apply WkUser.
    + intros c. cupds; auto.
    + intros u. rewrite t_slp_same. tupds; auto.
    + reflexivity.
  - brk_in Hs; [discriminate Hs|]. inv_some Hs. brk_in Er.
    + destruct (ctx_eqb_spec c (act (th s t))) as [Ec|Ec].
      * eapply (TFail _ _ t _ h [EJoinRet _ h (Some _) JDeadlock; EJoin _ h]); eauto; [now rewrite Ec|]. rewrite Ec. constructor; auto.
      * eapply (TCallJoin _ _ t _ h c); eauto. eqs_tac.
    + eapply (TFail _ _ t _ h [EJoinRet _ h None JInvalid; EJoin _ h]); eauto. constructor; auto.
  - brk_in Hs; [discriminate Hs|]. inv_some Hs. brk_in Er.
    + apply tr_release in Er; auto. destruct Er as (z & ev & Pz & ->). eapply (TDetach _ _ t _ h c z ev); eauto.
      * simpl in Pz. destruct Pz; [eapply RelMore|eapply RelLast]; eauto.
      * constructor; auto.
    + eapply (TFail _ _ t _ h [EDetach _ h None JInvalid]); eauto. constructor; auto.
  - brk_in Hs; [discriminate Hs|]. apply orb_false_iff in E. destruct E as [E E3]. apply orb_false_iff in E. destruct E as [E1 E2]. apply Nat.eqb_neq in E3.
    brk_in Hs; [discriminate Hs|]. inv_some Hs. eapply (TMove _ _ t _ h1 h2); eauto. constructor; auto.
  - destruct (act (th s t)) eqn:Ea; try discriminate Hs. inv_some Hs. eapply (TPc _ _ t _ PExit [EFin (Wk n)]); eauto; [rewrite Ea; eapply MExit; eauto|]. rewrite Ea. constructor; auto.
  - destruct (act (th s t)) eqn:Ea; try discriminate Hs. inv_some Hs. eapply (TShut _ _ t t0); eauto. constructor; auto.
Qed.

Lemma tr_front s t c r z0 : errs s = [] -> trm (th s t) = c :: r -> z0 = release_front s t c r -> errs z0 = [] ->
  term (cx s c) = true /\ exists z ev, prel s c (cx s c) z ev /\
  eqs z0 (cupd (cx s) c z) (upd (th s) t (t_wk (th s t) (wkr (th s t)) r)) (hn s) (hb s) (clk s) (ev ++ log s).
Proof.
  intros E0 Et -> Er. unfold release_front in *.
  assert (Hb : negb (worker_linked (sett s t (t_wk (th s t) (wkr (th s t)) r)) c) && unlinked (sett s t (t_wk (th s t) (wkr (th s t)) r)) c && term (cx s c) && match wtq (cx s c) with [] => true | _ => false end = true).
  { unfold check in Er. destruct (_ && _) eqn:E in Er; auto. exfalso. unfold release in Er. simpl in Er. unfold check in Er. simpl in Er. repeat brk_in Er; discriminate Er. }
  rewrite Hb in *. simpl in *. apply andb_true_iff in Hb. destruct Hb as [Hb _]. apply andb_true_iff in Hb. destruct Hb as [_ Hb]. split; auto.
  apply tr_release in Er; auto. destruct Er as (z & ev & Pz & ->). exists z, ev. split.
  - simpl in Pz. destruct Pz; [eapply RelMore|eapply RelLast]; eauto.
  - constructor; auto.
Qed.

Lemma tr_run s t s' : errs s = [] -> step s (LRun t) = Some s' -> errs s' = [] -> tr s s'.
Proof.
  intros E0 Hs Er. unfold step in Hs. rewrite E0 in Hs. unfold run in Hs.
  assert (HD : ctx_eqb (act (th s t)) (Dp t) = true -> pcc (cx s (act (th s t))) = pcc (cx s (Dp t)) /\ act (th s t) = Dp t).
  { intros H. destruct (ctx_eqb_spec (act (th s t)) (Dp t)) as [E|]; [rewrite E; auto|discriminate H]. }
  destruct (pcc (cx s (act (th s t)))) eqn:Ep.
  all: try (brk_in Hs; [|discriminate Hs]; destruct (HD eq_refl) as [HD1 HD2]; unfold dstep in Hs; rewrite <- HD1 in Hs; try discriminate Hs).
  - inv_some Hs. eapply (TPc _ _ t); eauto; [now apply MNew|]. constructor; auto.
  - inv_some Hs. eapply tr_switch; eauto.
    + eapply OutArmed; eauto.
    + intros c. cupds; auto. now rewrite c_pc_back.
    + intros u. rewrite t_slp_same. tupds; auto.
    + reflexivity.
    + reflexivity.
  - destruct w.
    + inv_some Hs. eapply (TPc _ _ t); eauto; [eapply MBlock; eauto|]. constructor; auto.
    + inv_some Hs. eapply (TPc _ _ t); eauto; [eapply MTimed; eauto|]. constructor; auto.
    + inv_some Hs. eapply (TPc _ _ t); eauto; [eapply MSleep; eauto|]. constructor; auto.
    + inv_some Hs. simpl in Er. apply check_errs in Er. destruct Er as [_ Er]. rewrite Er. simpl. eapply (TPc _ _ t); eauto; [eapply MJoin; eauto|constructor; auto].
      apply negb_true_iff in Er. intros Hi. rewrite <- not_true_iff_false in Er. apply Er, existsb_exists. exists (act (th s t), e). split; auto. simpl. now rewrite ctx_eqb_refl, Nat.eqb_refl.
  - inv_some Hs. eapply (TPc _ _ t); eauto; [now apply MYield|]. constructor; auto.
  - brk_in Hs; inv_some Hs; [discriminate Er|]. destruct (shut (th s (home (cx s g)))) eqn:Esh; simpl in Er; apply check_errs in Er; destruct Er as [_ Er]; rewrite Er; simpl.
    + eapply (TPush _ _ t _ g k _ [EShutAssert _]); eauto; [now rewrite Esh|]. constructor; auto.
    + eapply (TPush _ _ t _ g k _ []); eauto; [now rewrite Esh|]. constructor; auto.
  - brk_in Hs; inv_some Hs; [discriminate Er|]. eapply (TNote _ _ t _ u k); eauto. constructor; simpl; intros; auto. tupds; simpl; congruence.
  - brk_in Hs; [inv_some Hs; discriminate Er|]. brk_in Hs; [discriminate Hs|]. brk_in Hs; inv_some Hs.
    + eapply (TPc _ _ t); eauto; [eapply MTerm; eauto|]. constructor; auto.
    + unfold switch in *. simpl in *. brk_in Er; [discriminate Er|]. brk_in Er; [discriminate Er|]. 
      assert (Fd : freed (cx s c0) = false) by (cupds; simpl in *; auto; congruence).
      eapply (TJoin _ _ t _ h c _ c0 l); eauto. constructor; simpl; intros; auto. cupds; auto.
  - inv_some Hs. apply tr_release in Er; auto. destruct Er as (z & ev & Pz & ->). eapply (TRel _ _ t _ h c z ev); eauto.
    + simpl in Pz. destruct Pz; [eapply RelMore|eapply RelLast]; eauto.
    + constructor; auto.
  - brk_in Hs; [discriminate Hs|]. inv_some Hs. eapply (TExit _ _ t); eauto. constructor; auto.
  - destruct (wtq (cx s (act (th s t)))) as [|[g e] q] eqn:Eq.
    + inv_some Hs. simpl in Er. apply check_errs in Er. destruct Er as [_ Er]. rewrite Er. simpl. apply andb_true_iff in Er. destruct Er. eapply (TLeave _ _ t); eauto. constructor; auto.
    + brk_in Hs; inv_some Hs; [discriminate Er|]. eapply tr_wake; eauto.
      * eapply WkTerm; eauto.
      * intros c. simpl. cupds; auto.
      * intros u. rewrite t_slp_same. tupds; auto.
      * reflexivity.
  - inv_some Hs. eapply tr_switch; eauto.
    + eapply OutLeave; eauto.
    + intros c. cupds; auto. now rewrite c_pc_back.
    + intros u. rewrite t_slp_same. tupds; auto.
    + reflexivity.
    + reflexivity.
  - inv_some Hs. eapply tr_switch; eauto.
    + eapply OutShut; eauto.
    + intros c. cupds; auto. now rewrite c_pc_back.
    + intros u. rewrite t_slp_same. tupds; auto.
    + reflexivity.
    + reflexivity.
  - inv_some Hs. simpl in Er.
    assert (Hb : match wkr (th s t), trm (th s t), slp (th s t) with [], [], [] => negb (ready_linked s (Dp t)) | _, _, _ => false end = true).
    { unfold check in Er. destruct (match wkr (th s t) with [] => _ | _ => _ end) eqn:E in Er; [rewrite E; auto|]. exfalso. unfold release in Er. simpl in Er. unfold check in Er. simpl in Er. repeat brk_in Er; discriminate Er. }
    rewrite Hb in *. simpl in *. destruct (wkr (th s t)) eqn:E1, (trm (th s t)) eqn:E2, (slp (th s t)) eqn:E3; try discriminate Hb.
    apply tr_release in Er; auto. destruct Er as (z & ev & Pz & ->). simpl. eapply (TDown _ _ t _ z ev); eauto.
    + simpl in Pz. destruct Pz; [eapply RelMore|eapply RelLast]; eauto.
    + constructor; auto.
  - brk_in Hs.
    + inv_some Hs. eapply (TTop _ _ t); eauto. constructor; auto.
    + inv_some Hs. eapply (TPc _ _ t _ DRel []); eauto; [rewrite HD2 in *; now apply MTop|]. rewrite HD2 in *. constructor; auto.
  - destruct (trm (th s t)) as [|c r] eqn:Et; inv_some Hs.
    + eapply (TPc _ _ t _ DSwap []); eauto; [rewrite HD2 in *; now apply MRel|]. rewrite HD2 in *. constructor; auto.
    + destruct (tr_front s t c r _ E0 Et eq_refl Er) as (X1 & z & ev & X2 & X3). eapply (TFree _ _ t c r z ev); eauto.
  - inv_some Hs. eapply (TSwap _ _ t); eauto. constructor; auto.
  - destruct (tmp (th s t)) as [|c r] eqn:Et; inv_some Hs.
    + eapply (TPc _ _ t _ (DSleep (clk s)) []); eauto; [rewrite HD2 in *; now apply MDrain|]. rewrite HD2 in *. constructor; auto.
    + unfold schedule in *. simpl in *. apply check_errs in Er. destruct Er as [_ Er]. rewrite Er. simpl. eapply (TDrain _ _ t c r); eauto. eqs_tac.
  - destruct (slp (th s t)) as [|[[tp c] e] r] eqn:Et.
    + inv_some Hs. eapply (TPc _ _ t _ DPick []); eauto; [rewrite HD2 in *; eapply MSlp; eauto; now rewrite Et|]. rewrite HD2 in *. constructor; auto.
    + destruct (Nat.leb_spec tp nw) as [El|El]; inv_some Hs.
      * rewrite HD2 in *. eapply tr_wake; eauto.
        -- eapply WkDisp; eauto.
        -- intros d. simpl. cupds; auto.
        -- intros u. simpl. tupds; auto.
        -- reflexivity.
      * eapply (TPc _ _ t _ DPick []); eauto; [rewrite HD2 in *; eapply MSlp; eauto; now rewrite Et|]. rewrite HD2 in *. constructor; auto.
  - destruct (rq (th s t)) eqn:Eq; inv_some Hs.
    + eapply (TPc _ _ t _ _ []); eauto; [rewrite HD2 in *; eapply MIdle; eauto|]. rewrite HD2 in *. constructor; auto.
    + rewrite HD2 in *. eapply tr_switch; eauto.
      * eapply OutDisp; eauto.
      * intros c0. cupds; auto. now rewrite c_pc_back.
      * intros u. rewrite t_slp_same. tupds; auto.
      * reflexivity.
      * reflexivity.
  - inv_some Hs. eapply (TPc _ _ t _ DTop []); eauto; [rewrite HD2 in *; now apply MRes|]. rewrite HD2 in *. constructor; auto.
  - match type of Hs with (if ?b then _ else _) = _ => destruct b eqn:E1 end; [|discriminate Hs]. inv_some Hs. apply orb_true_iff in E1. eapply (TIdle _ _ t); eauto.
    + destruct E1 as [E1|E1]; auto. destruct o as [tp|]; [|discriminate E1]. apply Nat.leb_le in E1. eauto.
    + constructor; auto.
  - destruct (trm (th s t)) as [|c r] eqn:Et; inv_some Hs.
    + eapply (TEnd _ _ t); eauto. constructor; auto.
    + destruct (tr_front s t c r _ E0 Et eq_refl Er) as (X1 & z & ev & X2 & X3). eapply (TFree _ _ t c r z ev); eauto.
Qed.

Theorem step_tr s l s' : step s l = Some s' -> errs s' = [] -> errs s = [] /\ tr s s'.
Proof.
  intros Hs Er. assert (E0 : errs s = []) by (unfold step in Hs; destruct (errs s); [auto|discriminate Hs]). split; auto.
  destruct l as [t o|t|d]; [eapply tr_op; eauto|eapply tr_run; eauto|]. unfold step in Hs. rewrite E0 in Hs. inv_some Hs. eapply (TTick _ _ d). constructor; auto.
Qed.
