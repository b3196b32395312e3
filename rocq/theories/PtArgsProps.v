(** C150: the arguments of a packaged_task. *)
From Coq Require Import List Arith NArith Bool Lia.
From Verif Require Import Base PtArgs.
Import ListNotations.

(** Specification: a direct call of the target with the arguments of the caller. *)
Definition direct (f : target) (m : memory) (args : list nat) : found :=
  match f m args with RetVal v => FVal v | Throws e => FExc e | RetRef a => match m a with Some v => FVal v | None => Dangling end end.
(** All arguments refer to living objects; the numbers from [n] on are free. *)
Definition well (m : memory) (n : nat) (args : list nat) : Prop := (forall a, n <= a -> m a = None) /\ Forall (fun a => m a <> None) args.
(** A target that looks at nothing but the values of its arguments and of the objects that existed before the call. (It can return a reference, but not one to an argument.) *)
Definition by_value (f : target) (m : memory) (n : nat) : Prop :=
  forall m' args args', (forall a, a < n -> m' a = m a) -> map m' args' = map m args -> f m' args' = f m args.

Lemma tuple_spec : forall bad args m n, (forall a, n <= a -> m a = None) -> Forall (fun a => m a <> None) args -> (forall v, bad v = None) ->
  exists m' t, make_tuple bad m n args = Some (inl m', t) /\ (forall a, a < n -> m' a = m a) /\ map m' t = map m args /\ t = seq n (length args).
Proof.
  intros bad. induction args as [|a args IH]; intros m n Hf Hl Hb; [exists m, []; simpl; auto|]. inversion Hl as [|? ? Ha Hr]; subst.
  simpl. destruct (m a) as [v|] eqn:E; [|congruence]. rewrite Hb.
  assert (An : forall x, m x <> None -> x < n) by (intros x X; destruct (le_lt_dec n x); auto; rewrite Hf in X; congruence).
  destruct (IH (upd m n (Some v)) (S n)) as (m' & t & T & Ho & Hm & Ht).
  - intros x X. rewrite upd_other by lia. apply Hf. lia.
  - apply Forall_forall. intros x X. rewrite Forall_forall in Hr. specialize (Hr x X). rewrite upd_other by (apply An in Hr; lia). exact Hr.
  - exact Hb.
  - rewrite T. exists m', (n :: t). splits; auto.
    + intros x X. rewrite Ho by lia. apply upd_other. lia.
    + simpl. rewrite Ho by lia. rewrite upd_same. f_equal. rewrite Hm. apply map_ext_in. intros x X. rewrite Forall_forall in Hr. specialize (Hr x X). apply upd_other. apply An in Hr. lia.
    + simpl. rewrite Ht. reflexivity.
Qed.

(** C150 is false: a target that returns the reference it was given. Called directly it yields the value of the object of the caller; through a packaged_task the future refers to a destroyed copy. *)
Theorem C150_refuted : exists f m n args, well m n args /\ direct f m args = FVal 7 /\
  exists c m', run (fun _ => None) f m n args = Some (c, m') /\ get m' c = Dangling.
Proof.
  exists (fun _ l => match l with a :: _ => RetRef a | [] => Throws 0 end), (fun a => if a =? 0 then Some 7%N else None), 1, [0]. splits.
  - split; [intros [|a] H; [lia|reflexivity]|repeat constructor; discriminate].
  - reflexivity.
  - do 2 eexists. split; [vm_compute; reflexivity|reflexivity].
Qed.
Print Assumptions C150_refuted.

(** C150: for every target and all arguments, the function is called exactly with references to new objects, one for each argument, that have the values of the arguments; objects that existed before the call are unchanged, before and after it. *)
Theorem C150_copies_partial : forall bad f m n args, well m n args -> (forall v, bad v = None) ->
  exists m1, run bad f m n args = Some (store (f m1 (seq n (length args))), m) /\ map m1 (seq n (length args)) = map m args /\ (forall a, a < n -> m1 a = m a) /\
    (forall a, In a (seq n (length args)) -> m a = None).
Proof.
  intros bad f m n args [Hf Hl] Hb. destruct (tuple_spec bad args m n Hf Hl Hb) as (m1 & t & T & Ho & Hm & ->). exists m1. unfold run. rewrite T. splits; auto.
  intros a X. apply in_seq in X. apply Hf. lia.
Qed.
Print Assumptions C150_copies_partial.

(** C150 for targets that use the values of their arguments only: the future yields what a direct call yields. *)
Theorem C150_value_partial : forall bad f m n args, well m n args -> (forall v, bad v = None) -> by_value f m n ->
  exists c m', run bad f m n args = Some (c, m') /\ get m' c = direct f m args.
Proof.
  intros bad f m n args W Hb Hv. destruct (C150_copies_partial bad f m n args W Hb) as (m1 & R & Hm & Ho & _). do 2 eexists. split; [exact R|].
  rewrite (Hv m1 args (seq n (length args)) Ho Hm). unfold direct. destruct (f m args); reflexivity.
Qed.
Print Assumptions C150_value_partial.

(** C150 where it fails: whatever the target does, if it returns a reference to one of its arguments, the reference in the future dangles. *)
Theorem C150_dangling_partial : forall bad f m n args, well m n args -> (forall v, bad v = None) ->
  (forall m' l, length l = length args -> exists a, f m' l = RetRef a /\ In a l) -> exists c m', run bad f m n args = Some (c, m') /\ get m' c = Dangling.
Proof.
  intros bad f m n args W Hb Hr. destruct (C150_copies_partial bad f m n args W Hb) as (m1 & R & _ & _ & Hn). do 2 eexists. split; [exact R|].
  destruct (Hr m1 (seq n (length args))) as (a & E & I); [apply seq_length|]. rewrite E. simpl. now rewrite (Hn a I).
Qed.
Print Assumptions C150_dangling_partial.

(** C150: an exception of the copy constructor reaches the future, not the caller, and the target is not called: the outcome does not depend on it. *)
Theorem C150_copy_throws_partial : forall bad f m n args a v e, well m n args -> In a args -> m a = Some v -> bad v = Some e ->
  exists e', (exists v', bad v' = Some e') /\ forall f', run bad f' m n args = Some (CExc e', m) /\ run bad f m n args = run bad f' m n args.
Proof.
  intros bad f m n args a v e [Hf Hl] Hi Ha Hb.
  assert (X : forall args m n, (forall a, n <= a -> m a = None) -> Forall (fun a => m a <> None) args -> In a args -> m a = Some v -> exists e' t, make_tuple bad m n args = Some (inr e', t) /\ exists v', bad v' = Some e').
  { clear - Hb. induction args as [|b args IH]; intros m n Hf Hl Hi Ha; [contradiction|]. inversion Hl as [|? ? Hb' Hr]; subst. simpl. destruct (m b) as [w|] eqn:E; [|congruence].
    destruct (bad w) as [e0|] eqn:B; [do 2 eexists; split; [reflexivity|eauto]|]. destruct Hi as [->|Hi]; [congruence|].
    assert (An : forall x, m x <> None -> x < n) by (intros x X; destruct (le_lt_dec n x); auto; rewrite Hf in X; congruence).
    destruct (IH (upd m n (Some w)) (S n)) as (e' & t & T & Y).
    - intros x X. rewrite upd_other by lia. apply Hf. lia.
    - apply Forall_forall. intros x X. rewrite Forall_forall in Hr. specialize (Hr x X). rewrite upd_other by (apply An in Hr; lia). exact Hr.
    - exact Hi.
    - rewrite upd_other; auto. assert (a < n) by (apply An; congruence). lia.
    - rewrite T. do 2 eexists. split; [reflexivity|exact Y]. }
  destruct (X args m n Hf Hl Hi Ha) as (e' & t & T & Y). exists e'. split; auto. intros f'. unfold run. rewrite T. auto.
Qed.
Print Assumptions C150_copy_throws_partial.

Definition C150_f : target := fun m l => match map m l with [Some v; Some w] => RetVal (v + w) | _ => Throws 1 end.
Definition C150_m : memory := fun a => match a with 0 => Some 3%N | 1 => Some 4%N | _ => None end.
Example C150_case : well C150_m 2 [1; 0] /\ by_value C150_f C150_m 2 /\ (exists c m', run (fun _ => None) C150_f C150_m 2 [1; 0] = Some (c, m') /\ get m' c = FVal 7).
Proof.
  splits.
  - split; [intros [|[|a]] H; try lia; reflexivity|repeat constructor; discriminate].
  - intros m' args args' _ H. unfold C150_f. rewrite H. reflexivity.
  - do 2 eexists. split; [vm_compute; reflexivity|reflexivity].
Qed.
Example C150_case_throws : run (fun v => if N.eqb v 4 then Some 9 else None) C150_f C150_m 2 [0; 1] = Some (CExc 9, C150_m).
Proof. reflexivity. Qed.
Example C150_case_dangling : let f : target := fun _ l => RetRef (last l 0) in well C150_m 2 [1; 0] /\ forall m' l, length l = length [1; 0] -> exists a, f m' l = RetRef a /\ In a l.
Proof.
  split; [apply C150_case|]. intros m' l H. exists (last l 0). split; auto. destruct l as [|a [|b [|]]]; try discriminate. simpl. auto.
Qed.
