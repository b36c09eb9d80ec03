(** * LazyTask: an un-awaited coroutine without owner stays for ever (C13); and the concrete counterexamples of C06,
    C13-C15, C22. *)
From stdpp Require Import gmap list.
From Verif Require Import TaskModel TaskInv TaskSpec TaskSafe TaskView TaskTrace TaskLegal TaskFacts TaskRun.

Section lazy.
Context {V : Type} (mv : V -> V) (dflt : V).
Notation state := (state V).

(** [Orphan f fr s]: frame [fr] of [f] is at its initial suspend point and no Task object refers to it. *)
Definition Orphan (f : nat) (fr : frame V) (s : state) : Prop :=
  heap s !! f = Some fr ∧ ∀ x ob, objs s !! x = Some ob -> ohandle ob ≠ Some f.

Lemma orphan_deref f fr h (s s' : state) : Orphan f fr s -> h ≠ f -> deref h s = Next s' -> Orphan f fr s'.
Proof.
  intros [Hf Ho] Hne. unfold deref. destruct (heap s !! h) as [fh|] eqn:E; [|done].
  destruct (frc fh) as [|[|n]]; [done| |].
  - destruct (is_final fh); [|done]. intros [= <-]. split; [|done]. cbn. by rewrite lookup_delete_ne.
  - intros [= <-]. split; [|done]. cbn. by rewrite lookup_alter_ne.
Qed.

Lemma orphan_drop f fr x (s s' : state) : Orphan f fr s -> drop_obj x s = Next s' -> Orphan f fr s'.
Proof.
  intros HO. unfold drop_obj. destruct (objs s !! x) as [ob|] eqn:Hx; [|done].
  assert (HO' : Orphan f fr (set_objs (delete x (objs s)) s)).
  { destruct HO as [Hf Ho]. split; [done|]. intros y ob'. cbn. intros [_ Hy]%lookup_delete_Some. eauto. }
  destruct (ohandle ob) as [h|] eqn:Hh; [|by intros [= <-]].
  apply orphan_deref; [done|]. intros ->. destruct HO as [_ Ho]. by eapply Ho.
Qed.

Lemma orphan_move f ps : ∀ (m : gmap nat tobj) n m' l, (∀ x ob, m !! x = Some ob -> ohandle ob ≠ Some f) ->
  move_all ps m n = Some (m', l) -> ∀ x ob, m' !! x = Some ob -> ohandle ob ≠ Some f.
Proof.
  induction ps as [|y ps IH]; intros m n m' l Hm; cbn; [by intros [= <- <-]|].
  destruct (m !! y) as [oy|] eqn:Hy; [|done].
  destruct (move_all ps _ (S n)) as [[m1 l1]|] eqn:E; [|done]. intros [= <- <-].
  eapply IH; [|exact E]. intros x ob. intros [[? <-]|[? Hx]]%lookup_insert_Some; [eauto|].
  apply lookup_insert_Some in Hx as [[? <-]|[? Hx]]; [done|eauto].
Qed.

Lemma orphan_await f fr g x k (s s' : state) : Orphan f fr s -> g ≠ f -> do_await mv g x k s = Next s' -> Orphan f fr s'.
Proof.
  intros [Hf Ho] Hg. unfold do_await. destruct (objs s !! x) as [ob|] eqn:Hx; [|done].
  pose proof (Ho x ob Hx) as Hne.
  destruct (ohandle ob) as [h|] eqn:Hh.
  - assert (h ≠ f) by congruence. destruct (heap s !! h) as [fh|] eqn:E; [|done].
    destruct (is_final fh).
    + unfold take_result. rewrite E. destruct (fresult fh); [|done]. intros [= <-]. split; [|done]. cbn. by rewrite lookup_alter_ne.
    + destruct (okind ob).
      * intros [= <-]. split; [|done]. cbn. by rewrite !lookup_alter_ne.
      * destruct (fstatus fh); try done. intros [= <-]. split; [|done]. cbn. by rewrite !lookup_alter_ne.
  - destruct (okind ob); [|done]. intros [= <-]. split; [|done]. cbn. by rewrite !lookup_alter_ne.
Qed.

Lemma orphan_finish f fr g o (s s' : state) : Orphan f fr s -> g ≠ f -> finish g o s = Next s' -> Orphan f fr s'.
Proof.
  intros [Hf Ho] Hg. unfold finish. destruct (heap s !! g); [|done]. intros [= <-]. split; [|done]. cbn. by rewrite lookup_alter_ne.
Qed.

Lemma orphan_objs f fr m (s : state) : heap s !! f = Some fr -> (∀ x ob, m !! x = Some ob -> ohandle ob ≠ Some f) ->
  Orphan f fr (set_objs m s).
Proof. by split. Qed.

Ltac ins Ho := let x := fresh in let ob := fresh in intros x ob;
  repeat (intros [[? <-]|[? ?]]%lookup_insert_Some; [try done; eauto|]; revert select (_ !! x = Some ob));
  try apply Ho.

Lemma orphan_user f fr w p (s s' : state) : Orphan f fr s -> f < nf s -> w ≠ Co f -> step_user mv w p s = Next s' ->
  Orphan f fr s'.
Proof.
  intros HO Hlt Hw. destruct (HO) as [Hf Ho].
  assert (Hw' : ∀ g, w = Co g -> g ≠ f) by (intros g -> ->; done).
  unfold step_user. destruct p as [v|e|o p|k ps b c|x c|c|k c|x c|x y p|x p|x c|vd x c|q c|q p].
  - destruct w; [|by intros [= <-]]. apply orphan_finish; eauto.
  - destruct w; [|done]. apply orphan_finish; eauto.
  - by intros [= <-].
  - destruct (move_all ps (objs s) (S (nt s))) as [[m ps']|] eqn:E; [|done].
    assert (Hm : ∀ x ob, m !! x = Some ob -> ohandle ob ≠ Some f) by (by eapply orphan_move).
    destruct k; intros [= <-]; (split; [cbn; rewrite lookup_insert_ne by lia; done|]); cbn; intros x ob;
      (intros [[? <-]|[? ?]]%lookup_insert_Some; [cbn; injection 1; lia|eauto]).
  - destruct w; [|done]. apply orphan_await; eauto.
  - destruct w; [|done]. intros [= <-]. split; [|done]. cbn. rewrite lookup_alter_ne; eauto.
  - intros [= <-]. split; [done|]. cbn. intros x ob [[? <-]|[? ?]]%lookup_insert_Some; [done|eauto].
  - destruct (objs s !! x) as [ob|] eqn:Hx; [|done]. intros [= <-]. split; [done|]. cbn.
    intros y oy [[? <-]|[? Hy]]%lookup_insert_Some; [eauto|]. apply lookup_insert_Some in Hy as [[? <-]|[? ?]]; [done|eauto].
  - destruct (objs s !! x) as [ox|] eqn:Hx; [|done]. destruct (objs s !! y) as [oy|] eqn:Hy; [|done].
    destruct (decide (x = y)); [by intros [= <-]|].
    assert (HO' : Orphan f fr (set_objs (<[x := Obj (okind ox) None]> (objs (push (Run w (CUser p)) (emit (EAct w AAssign) s))))
      (push (Assign x y) (push (Run w (CUser p)) (emit (EAct w AAssign) s))))).
    { apply orphan_objs; [done|]. cbn. intros z oz [[? <-]|[? ?]]%lookup_insert_Some; [done|eauto]. }
    destruct (ohandle ox) as [h|] eqn:Hh; [|by intros [= <-]].
    apply orphan_deref; [done|]. intros ->. exact (Ho _ _ Hx Hh).
  - apply orphan_drop. by split.
  - destruct (objs s !! x) as [ob|]; [|done]. destruct (ohandle ob) as [h|]; [|by intros [= <-]].
    destruct (heap s !! h); [|done]. by intros [= <-].
  - destruct (objs s !! x) as [ob|] eqn:Hx; [|done]. apply orphan_await; [|lia].
    split; [cbn; by rewrite lookup_insert_ne by lia|]. cbn. intros z oz [[? <-]|[? ?]]%lookup_insert_Some; [|eauto].
    cbn. injection 1. lia.
  - by intros [= <-].
  - by intros [= <-].
Qed.

Lemma orphan_step q f fr p (s s' : state) : reach mv dflt q s -> fstatus fr = Initial p -> Orphan f fr s ->
  step mv dflt s = Next s' -> Orphan f fr s'.
Proof.
  intros H Hi HO. destruct (HO) as [Hf Ho]. destruct (good_reach _ _ _ _ H) as [HI _].
  assert (Hlt : f < nf s) by (apply (inv_bf _ _ _ _ _ _ _ HI); eauto).
  unfold step. destruct (stack s) as [|[w c|h [|a l]|[|x l]|x y|w vd x i ent c] st] eqn:Hst; [done|..].
  - assert (Hw : w ≠ Co f).
    { intros ->. destruct (inv_act _ _ _ _ _ _ _ HI f) as (fr' & Hf' & Hr); [rewrite Hst, actors_cons; left|].
      rewrite Hf in Hf'. injection Hf' as <-. congruence. }
    destruct c as [pp|i x hd|i o].
    + apply orphan_user; done.
    + destruct w as [g|]; [|done]. apply orphan_await; [done|congruence].
    + destruct w as [g|]; [|done]. cbn. destruct (ctxs s !! i); [|done]. apply orphan_finish; [done|congruence].
  - apply orphan_deref; [done|]. intros ->. destruct (inv_fin _ _ _ _ _ _ _ HI f) as (fr' & Hf' & Hr); [rewrite Hst, finals_cons; left|].
    rewrite Hf in Hf'. injection Hf' as <-. unfold is_final in Hr. by rewrite Hi in Hr.
  - destruct (heap s !! a) as [fa|] eqn:Ha; [|done]. destruct (fstatus fa) as [| |h' k| | |] eqn:Hfa; try done.
    assert (Hna : a ≠ f) by (intros ->; congruence).
    destruct (heap s !! h') as [fh|] eqn:Hh'; [|done]. unfold take_result. cbn.
    destruct (alter (fr_status Running) a (heap s) !! h') as [fh2|] eqn:E2; [|done].
    destruct (fresult fh2) as [o|] eqn:Er; [|done]. intros [= <-]. split; [|done]. cbn.
    assert (h' ≠ f).
    { intros ->. rewrite lookup_alter_ne in E2 by done. assert (fh2 = fr) as -> by congruence.
      destruct (frame_phase _ _ _ _ _ _ H Hf) . pose proof (frame_result _ _ _ _ _ _ H Hf) as Hr. rewrite Er in Hr.
      pose proof (trace_legal _ _ _ _ H) as Hl. pose proof (result_deliveries mv f _ Hl) as Hd. rewrite Hr in Hd.
      destruct Hd as (o' & Hin & _). pose proof (finished_frame _ _ _ _ _ _ _ H Hin Hf) as Hx. unfold is_final in Hx. by rewrite Hi in Hx. }
    by rewrite !lookup_alter_ne.
  - by intros [= <-].
  - apply orphan_drop. by split.
  - destruct (objs s !! x) as [ox|] eqn:Hx; [|done]. destruct (objs s !! y) as [oy|] eqn:Hy; [|done]. intros [= <-].
    split; [done|]. cbn. intros z oz [[? <-]|[? Hz]]%lookup_insert_Some; [eauto|].
    apply lookup_insert_Some in Hz as [[? <-]|[? ?]]; [done|eauto].
  - destruct (ctxs s !! i) as [[o|]|]; [| |done].
    + by intros [= <-].
    + destruct ent; [done|]. by intros [= <-].
Qed.

Lemma orphan_env q f fr p e (s s' : state) : reach mv dflt q s -> fstatus fr = Initial p -> Orphan f fr s ->
  env_step mv dflt e s = Next s' -> Orphan f fr s'.
Proof.
  intros H Hi HO. destruct (HO) as [Hf Ho]. unfold env_step. destruct (is_idle mv dflt s); [|done].
  destruct e as [pp|g o|qq|].
  - by intros [= <-].
  - destruct (heap s !! g) as [fg|] eqn:Hg; [|by intros [= <-]]. destruct (fstatus fg) eqn:Hs; try by intros [= <-].
    intros [= <-]. split; [|done]. cbn. rewrite lookup_alter_ne; [done|]. intros ->. congruence.
  - by intros [= <-].
  - destruct (stack s) as [|[| | | |w vd x i ent c] st]; try by intros [= <-]. destruct vd; [|done]. by intros [= <-].
Qed.

Lemma orphan_exec q f fr p (s s' : state) : reach mv dflt q s -> fstatus fr = Initial p -> Orphan f fr s ->
  exec mv dflt q s s' -> Orphan f fr s' ∧ reach mv dflt q s'.
Proof.
  intros H Hi HO He. induction He as [s|s s1 s2 _ IH Hs|s s1 s2 e _ IH Hq Hs]; [done| |].
  - destruct (IH H HO) as [HO1 H1]. split; [by eapply orphan_step|].
    destruct H1 as [qs H1]. exists qs. by eapply exec_step.
  - destruct (IH H HO) as [HO1 H1]. split; [by eapply orphan_env|].
    destruct H1 as [qs H1]. exists qs. by eapply exec_env.
Qed.

Lemma c13_forever q s s' f : reach mv dflt q s -> phase_of f (trace s) = PhInit -> 
  (∀ x ob, objs s !! x = Some ob -> ohandle ob ≠ Some f) -> exec mv dflt q s s' -> EDestroy f ∉ trace s' ∧ EStart f ∉ trace s'.
Proof.
  intros H Hp Ho He. destruct (heap s !! f) as [fr|] eqn:Hf.
  - pose proof (frame_phase _ _ _ _ _ _ H Hf) as Hp2. rewrite Hp in Hp2.
    destruct (fstatus fr) as [p| | | | |] eqn:Hi; try done.
    destruct (orphan_exec q f fr p s s' H Hi (conj Hf Ho) He) as [[Hf' _] H'].
    pose proof (frame_phase _ _ _ _ _ _ H' Hf') as Hp'. rewrite Hi in Hp'. pose proof (trace_legal _ _ _ _ H') as Hl.
    split; intros Hin.
    + apply (phase_gone mv) in Hin; [|done]. by rewrite Hp' in Hin.
    + clear -Hin Hp' Hl. cbn in Hp'. remember (trace s') as tr eqn:Et. clear Et s'.
      induction tr as [|e tr IH]; [by apply elem_of_nil in Hin|]. destruct Hl as [Hl1 Hl].
      apply elem_of_cons in Hin as [<-|Hin]; [cbn in Hp'; by rewrite decide_True in Hp'|].
      cbn in Hp'. assert (phase_of f tr ≠ PhInit) by (intros ?; by apply IH).
      destruct e; cbn in Hp'; try done; destruct (decide _) as [<-|]; try done.
      destruct Hl1 as [Hn _]. clear -Hin Hn Hl. 
      induction tr as [|e tr IH]; [by apply elem_of_nil in Hin|]. destruct Hl as [Hl1 Hl].
      apply elem_of_cons in Hin as [<-|Hin]; [cbn in Hn; by rewrite decide_True in Hn|].
      apply IH; [|done|done]. destruct e; cbn in Hn; try done; destruct (decide _); done.
  - destruct (no_frame_phase _ _ _ _ _ H Hf) as [?|?]; congruence.
Qed.
End lazy.

(** ** Counterexamples *)
Lemma c06_refuted : ¬ ∀ s h o x, reach mv0 0 false s -> EFinish h o ∈ trace s -> x ∈ deliveries h (trace s) -> x = o.
Proof.
  intros H. specialize (H run_two 1 (Val 5) (Val 0) run_two_reach). discriminate H; [at_ 8|]. at_ 1.
Qed.

Lemma c13_refuted : ¬ ∀ s f b w, reach mv0 0 false s -> stack s = [] -> ECreate f KLazy b w ∈ trace s ->
  (∀ x ob, objs s !! x = Some ob -> ohandle ob ≠ Some f) -> EDestroy f ∈ trace s.
Proof.
  intros H. specialize (H (run1 lazy_drop 100) 1 (CUser done5) (Plain 0) (run1_reach _ _)).
  assert (E : EDestroy 1 ∉ trace (run1 lazy_drop 100)) by not_in (is_destroy 1).
  apply E, H; [vm_compute; reflexivity|at_ 1|].
  apply no_owner. vm_compute. reflexivity.
Qed.

Lemma c14_refuted : ¬ ∀ s f x c ob st, reach mv0 0 false s -> stack s = Run (Co f) (CUser (PAwait x c)) :: st ->
  objs s !! x = Some ob -> ohandle ob = None -> ∃ s', step mv0 0 s = Next s' ∧ stack s' = st ∧ trace s' = EHang f :: trace s.
Proof.
  intros H. assert (E : step mv0 0 (run1 (await_null KLazy) 2) = UB ULazyNull) by (vm_compute; reflexivity).
  edestruct (λ f x c ob st, H (run1 (await_null KLazy) 2) f x c ob st (run1_reach _ _)) as (s' & Hs & _);
    [vm_compute; reflexivity|vm_compute; reflexivity|vm_compute; reflexivity|]. rewrite E in Hs. discriminate.
Qed.

Lemma c15_refuted : ¬ ∀ s f x c ob h st, reach mv0 0 false s -> stack s = Run (Co f) (CUser (PAwait x c)) :: st ->
  objs s !! x = Some ob -> ohandle ob = Some h -> EStart h ∈ trace s -> (∀ o, EFinish h o ∉ trace s) ->
  ∃ s', step mv0 0 s = Next s' ∧ stack s' = st ∧ trace s' = EWait f h :: trace s.
Proof.
  intros H. assert (E : step mv0 0 (run1 lazy_twice 100) = UB ULazyReawait) by (vm_compute; reflexivity).
  edestruct (λ f x c ob st, H (run1 lazy_twice 100) f x c ob 1 st (run1_reach _ _)) as (s' & Hs & _);
    [vm_compute; reflexivity|vm_compute; reflexivity|vm_compute; reflexivity|at_ 4|intros o; not_in (is_fin 1)|].
  rewrite E in Hs. discriminate.
Qed.

(** waitFor(leaf), then the nested loop is quit. *)
Definition quit_run (vd : bool) (evs : list (envev nat)) (m : nat) : state nat :=
  drive mv0 0 m (play mv0 0 100 (EvHandler (use_wait vd leaf) :: evs) (init ∅)).

Lemma c22_refuted : ¬ ∀ s r, reach mv0 0 true s -> ub_next mv0 0 true s r -> r ≠ UEmptyOptional.
Proof.
  intros H. apply (H (quit_run false [] 0) UEmptyOptional); [by apply play_drive_reach| |done].
  right. exists EvQuit. split; [done|]. vm_compute. reflexivity.
Qed.

Lemma c22_void_refuted : ¬ ∀ s r, reach mv0 0 true s -> ub_next mv0 0 true s r -> r ≠ UDanglingCtx.
Proof.
  intros H. apply (H (quit_run true [EvQuit; EvFire 1 (Val 5)] 100) UDanglingCtx); [by apply play_drive_reach| |done].
  left. vm_compute. reflexivity.
Qed.
