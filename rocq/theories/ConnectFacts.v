(** * connect() and then() on an rvalue: what the calls themselves do *)
From stdpp Require Import gmap list.
From Verif Require Import TaskModel TaskInv TaskSafe TaskView TaskSpec TaskTrace TaskWalk TaskLegal TaskMore
  TaskAlive TaskCtx TaskFacts TaskLoop TaskParams TaskFacts2.

Section facts.
Context {V : Type} (mv : V -> V) (dflt : V).
Notation step := (step mv dflt). Notation reach := (reach mv dflt). Notation steps := (steps mv dflt).

Lemma fresh_obj q s : reach q s -> objs s !! nt s = None.
Proof.
  intros H. destruct (good_reach _ _ _ _ H) as [HI _]. destruct (objs s !! nt s) as [ob|] eqn:E; [|done].
  pose proof (inv_bt _ _ _ _ _ _ _ HI (nt s) ltac:(eauto)). lia.
Qed.

Lemma then_moved q s w k x ob cb err c st : reach q s -> stack s = Run w (CUser (then_move dflt k x cb err c)) :: st -> objs s !! x = Some ob ->
  ∃ s' t f p, step s = Next s' ∧ objs s' !! p = Some ob ∧ objs s' !! x = Some (Obj (okind ob) None) ∧ p ≠ x ∧
    objs s !! p = None ∧ objs s' !! t = Some (Obj k (Some f)) ∧ EAct w (ACall t f [p]) ∈ trace s' ∧
    ECreate f k (CUser (then_body dflt p cb err)) w ∈ trace s' ∧
    stack s' = match k with KTask => [Run (Co f) (CUser (then_body dflt p cb err))] | KLazy => [] end ++ Run w (CUser (c t)) :: st.
Proof.
  intros H Hst Hx. destruct (good_reach _ _ _ _ H) as [HI _].
  assert (Hxn : x < nt s) by (apply (inv_bt _ _ _ _ _ _ _ HI); eauto).
  assert (Hn : objs s !! S (nt s) = None).
  { destruct (objs s !! S (nt s)) as [o|] eqn:E; [|done]. pose proof (inv_bt _ _ _ _ _ _ _ HI (S (nt s)) ltac:(eauto)). lia. }
  destruct k.
  all: eexists _, (nt s), (nf s), (S (nt s)); split; [unfold TaskModel.step; rewrite Hst; cbn; rewrite Hx; cbn; reflexivity|].
  all: cbn; split_and!; try done; try lia.
  all: try by rewrite lookup_insert_ne, lookup_insert by lia.
  all: try by rewrite lookup_insert.
  all: try by rewrite lookup_insert_ne, lookup_insert_ne, lookup_insert by lia.
  all: set_solver.
Qed.

Lemma connect_later q s w x qo cb c st ob h : reach q s ->
  stack s = Run w (CUser (connect dflt x qo cb c)) :: st ->
  objs s !! x = Some ob -> okind ob = KTask -> ohandle ob = Some h -> (∀ o, EFinish h o ∉ trace s) ->
  ∃ s' f t, steps s s' ∧ stack s' = Run w (CUser c) :: st ∧ objs s' = objs s ∧
    trace s' = EAct w (ADrop t) :: EWait f h :: EStart f :: ECreate f KTask (CUser (connect_body dflt x qo cb)) w :: EAct w (ACall t f []) :: trace s.
Proof.
  intros H Hst Hx Hk Hh Hfin. destruct (good_reach _ _ _ _ H) as [HI _]. pose proof (fresh_obj _ _ H) as Hno.
  destruct (inv_obj _ _ _ _ _ _ _ HI x ob h Hx Hh) as (fr & Hf & _).
  assert (Hfi : is_final fr = false).
  { destruct (is_final fr) eqn:E; [|done]. destruct (frame_finished _ _ _ _ _ _ H Hf E) as [o ?]. by destruct (Hfin o). }
  assert (Hxn : x < nt s) by (apply (inv_bt _ _ _ _ _ _ _ HI); eauto).
  assert (Hhn : h < nf s) by (apply (inv_bf _ _ _ _ _ _ _ HI); eauto).
  eexists _, (nf s), (nt s). split.
  - eapply steps_cons.
    { unfold TaskModel.step. rewrite Hst. cbn. reflexivity. }
    eapply steps_cons.
    { unfold TaskModel.step. cbn. unfold do_await. cbn. rewrite lookup_insert_ne by lia. rewrite Hx, Hh.
      rewrite lookup_insert_ne by lia. rewrite Hf, Hfi, Hk. reflexivity. }
    apply steps_one. unfold TaskModel.step. cbn. unfold drop_obj. cbn. rewrite lookup_insert. cbn. unfold deref. cbn.
    rewrite lookup_alter, lookup_alter_ne, lookup_insert by lia. cbn. reflexivity.
  - cbn. split_and!; try done. by rewrite delete_insert.
Qed.

Lemma connect_now q s w x qo cb c st ob h v o0 : reach q s ->
  stack s = Run w (CUser (connect dflt x qo cb c)) :: st ->
  objs s !! x = Some ob -> ohandle ob = Some h -> EFinish h o0 ∈ trace s -> result_of mv h (trace s) = Some (Val v) -> qo ∈ alive s ->
  ∃ s' f t, steps s s' ∧ stack s' = Run (Co f) (CUser (cb v)) :: Run w (CUser (PDrop t c)) :: st ∧
    objs s' = <[t := Obj KTask (Some f)]> (objs s) ∧
    trace s' = EObs (Co f) (OConn qo v) :: EAct (Co f) (AAlive qo true) :: EObs (Co f) (OThen v) :: ENow f h (Val v) :: EStart f ::
      ECreate f KTask (CUser (connect_body dflt x qo cb)) w :: EAct w (ACall t f []) :: trace s.
Proof.
  intros H Hst Hx Hh Hfin Hres Hq. destruct (good_reach _ _ _ _ H) as [HI _].
  destruct (inv_obj _ _ _ _ _ _ _ HI x ob h Hx Hh) as (fr & Hf & _).
  pose proof (finished_frame _ _ _ _ _ _ _ H Hfin Hf) as Hfi.
  pose proof (frame_result _ _ _ _ _ _ H Hf) as Hr. rewrite Hres in Hr.
  assert (Hxn : x < nt s) by (apply (inv_bt _ _ _ _ _ _ _ HI); eauto).
  assert (Hhn : h < nf s) by (apply (inv_bf _ _ _ _ _ _ _ HI); eauto).
  eexists _, (nf s), (nt s). split.
  - eapply steps_cons.
    { unfold TaskModel.step. rewrite Hst. cbn. reflexivity. }
    eapply steps_cons.
    { unfold TaskModel.step. cbn. unfold do_await. cbn. rewrite lookup_insert_ne by lia. rewrite Hx, Hh.
      rewrite lookup_insert_ne by lia. rewrite Hf, Hfi.
      unfold take_result. cbn. rewrite lookup_insert_ne by lia. rewrite Hf, <- Hr. reflexivity. }
    eapply steps_cons; [unfold TaskModel.step; cbn; reflexivity|].
    eapply steps_cons; [unfold TaskModel.step; cbn; rewrite bool_decide_eq_true_2 by done; reflexivity|].
    apply steps_one. unfold TaskModel.step. cbn. reflexivity.
  - cbn. done.
Qed.

(** The callback is not called: the context is dead, or the task failed. *)
Lemma connect_nothing q s w x qo cb c st ob h o o0 : reach q s ->
  stack s = Run w (CUser (connect dflt x qo cb c)) :: st ->
  objs s !! x = Some ob -> ohandle ob = Some h -> EFinish h o0 ∈ trace s -> result_of mv h (trace s) = Some o -> (∀ v, o = Val v -> qo ∉ alive s) ->
  ∃ s' l, steps s s' ∧ stack s' = Run w (CUser c) :: st ∧ objs s' = objs s ∧ trace s' = l ++ trace s ∧ (∀ f v, EObs f (OConn qo v) ∉ l).
Proof.
  intros H Hst Hx Hh Hfin Hres Hq. destruct (good_reach _ _ _ _ H) as [HI _]. pose proof (fresh_obj _ _ H) as Hno.
  destruct (inv_obj _ _ _ _ _ _ _ HI x ob h Hx Hh) as (fr & Hf & _).
  pose proof (finished_frame _ _ _ _ _ _ _ H Hfin Hf) as Hfi.
  pose proof (frame_result _ _ _ _ _ _ H Hf) as Hr. rewrite Hres in Hr.
  assert (Hxn : x < nt s) by (apply (inv_bt _ _ _ _ _ _ _ HI); eauto).
  assert (Hhn : h < nf s) by (apply (inv_bf _ _ _ _ _ _ _ HI); eauto).
  destruct o as [v|e].
  - eexists _, [_; _; _; _; _; _; _; _; _]. split.
    + eapply steps_cons.
      { unfold TaskModel.step. rewrite Hst. cbn. reflexivity. }
      eapply steps_cons.
      { unfold TaskModel.step. cbn. unfold do_await. cbn. rewrite lookup_insert_ne by lia. rewrite Hx, Hh.
        rewrite lookup_insert_ne by lia. rewrite Hf, Hfi.
        unfold take_result. cbn. rewrite lookup_insert_ne by lia. rewrite Hf, <- Hr. reflexivity. }
      eapply steps_cons; [unfold TaskModel.step; cbn; reflexivity|].
      eapply steps_cons; [unfold TaskModel.step; cbn; rewrite bool_decide_eq_false_2 by eauto; reflexivity|].
      eapply steps_cons. { unfold TaskModel.step. cbn. unfold finish. cbn. rewrite lookup_alter_ne, lookup_insert by lia. cbn. reflexivity. }
      eapply steps_cons. { unfold TaskModel.step. cbn. unfold deref. cbn. rewrite lookup_alter, lookup_alter_ne, lookup_insert by lia. cbn. reflexivity. }
      eapply steps_cons. { unfold TaskModel.step. cbn. unfold drop_obj. cbn. rewrite lookup_insert. cbn. unfold deref. cbn.
        rewrite !lookup_alter, lookup_alter_ne, lookup_insert by lia. cbn. reflexivity. }
      apply steps_one. unfold TaskModel.step. cbn. reflexivity.
    + cbn. split_and!; try done; [by rewrite delete_insert|]. intros f v'. rewrite !not_elem_of_cons. split_and!; try done. apply not_elem_of_nil.
  - eexists _, [_; _; _; _; _; _; _]. split.
    + eapply steps_cons.
      { unfold TaskModel.step. rewrite Hst. cbn. reflexivity. }
      eapply steps_cons.
      { unfold TaskModel.step. cbn. unfold do_await. cbn. rewrite lookup_insert_ne by lia. rewrite Hx, Hh.
        rewrite lookup_insert_ne by lia. rewrite Hf, Hfi.
        unfold take_result. cbn. rewrite lookup_insert_ne by lia. rewrite Hf, <- Hr. reflexivity. }
      eapply steps_cons. { unfold TaskModel.step. destruct e; cbn; unfold finish; cbn; rewrite lookup_alter_ne, lookup_insert by lia; cbn; reflexivity. }
      eapply steps_cons. { unfold TaskModel.step. cbn. unfold deref. cbn. rewrite lookup_alter, lookup_alter_ne, lookup_insert by lia. cbn. reflexivity. }
      eapply steps_cons. { unfold TaskModel.step. cbn. unfold drop_obj. cbn. rewrite lookup_insert. cbn. unfold deref. cbn.
        rewrite !lookup_alter, lookup_alter_ne, lookup_insert by lia. cbn. reflexivity. }
      apply steps_one. unfold TaskModel.step. cbn. reflexivity.
    + cbn. split_and!; try done; [by rewrite delete_insert|]. intros f v'. rewrite !not_elem_of_cons. split_and!; try done. apply not_elem_of_nil.
Qed.

(** ** connect() on a future *)
Lemma steps_reach q s s' : steps s s' -> reach q s -> reach q s'.
Proof. induction 1 as [|s s1 s2 H _ IH]; [done|]. intros [qs Hr]. apply IH. exists qs. by eapply exec_step. Qed.

Lemma fresh_frame q s : reach q s -> heap s !! nf s = None.
Proof.
  intros H. destruct (good_reach _ _ _ _ H) as [HI _]. destruct (heap s !! nf s) as [ob|] eqn:E; [|done].
  pose proof (inv_bf _ _ _ _ _ _ _ HI (nf s) ltac:(eauto)). lia.
Qed.

(** Dropping a Task of an unfinished coroutine only gives up the reference. *)
Lemma drop_unfinished q s w x c st ob h : reach q s -> stack s = Run w (CUser (PDrop x c)) :: st -> objs s !! x = Some ob -> ohandle ob = Some h ->
  (∀ o, EFinish h o ∉ trace s) ->
  ∃ s', step s = Next s' ∧ stack s' = Run w (CUser c) :: st ∧ objs s' = delete x (objs s) ∧ trace s' = EAct w (ADrop x) :: trace s ∧ alive s' = alive s.
Proof.
  intros H Hst Hx Hh Hfin. destruct (good_reach _ _ _ _ H) as [HI _].
  destruct (inv_obj _ _ _ _ _ _ _ HI x ob h Hx Hh) as (fr & Hf & _).
  assert (Hfi : is_final fr = false).
  { destruct (is_final fr) eqn:E; [|done]. destruct (frame_finished _ _ _ _ _ _ H Hf E) as [o ?]. by destruct (Hfin o). }
  pose proof (c01 _ _ _ _ H) as (_ & _ & _ & Hu & Hd).
  assert (E : step s = deref h (set_objs (delete x (objs s)) (push (Run w (CUser c)) (emit (EAct w (ADrop x)) (set_stack st s))))).
  { unfold TaskModel.step. rewrite Hst. cbn. unfold drop_obj. cbn. by rewrite Hx, Hh. }
  unfold deref in E. cbn in E. rewrite Hf in E. destruct (frc fr) as [|[|n]] eqn:En.
  - exfalso. apply Hu. by left.
  - rewrite Hfi in E. exfalso. apply Hd. by left.
  - eexists. split; [exact E|]. done.
Qed.

Lemma future_later q s w qo cb c st : reach q s ->
  stack s = Run w (CUser (connect_future dflt None qo cb c)) :: st ->
  ∃ s' f t g u, steps s s' ∧ stack s' = Run w (CUser c) :: st ∧ objs s' = objs s ∧
    trace s' = EAct w (ADrop t) :: EAct w (ADrop u) ::
      EWait g f :: EStart g :: ECreate g KTask (CUser (connect_body dflt t qo cb)) w :: EAct w (ACall u g []) ::
      ELeafWait f :: EStart f :: ECreate f KTask (CUser (to_task_body None)) w :: EAct w (ACall t f []) :: trace s.
Proof.
  intros H Hst. pose proof (fresh_obj _ _ H) as Hno. pose proof (fresh_frame _ _ H) as Hnf.
  set (s2 := State (<[nf s := Frame KTask (AwaitLeaf ret_outcome) [] 2 None []]> (heap s)) (<[nt s := Obj KTask (Some (nf s))]> (objs s)) (alive s) (ctxs s)
    (Run w (CUser (connect dflt (nt s) qo cb (PDrop (nt s) c))) :: st)
    (ELeafWait (nf s) :: EStart (nf s) :: ECreate (nf s) KTask (CUser (to_task_body None)) w :: EAct w (ACall (nt s) (nf s) []) :: trace s) (S (nf s)) (S (nt s) + 0) (nc s)).
  assert (Hs2 : steps s s2).
  { eapply steps_cons. { unfold TaskModel.step. rewrite Hst. cbn. reflexivity. }
    apply steps_one. unfold TaskModel.step. cbn. unfold upd. cbn. rewrite alter_insert. reflexivity. }
  pose proof (steps_reach _ _ _ Hs2 H) as Hr2.
  destruct (connect_later q s2 w (nt s) qo cb (PDrop (nt s) c) st (Obj KTask (Some (nf s))) (nf s)) as (s3 & g & u & Hs3 & Hst3 & Ho3 & Ht3); try done.
  { cbn. by rewrite lookup_insert. }
  { intros o Ho. assert (Hf2 : heap s2 !! nf s = Some (Frame KTask (AwaitLeaf ret_outcome) [] 2 None [])) by (cbn; by rewrite lookup_insert).
    pose proof (finished_frame _ _ _ _ _ _ _ Hr2 Ho Hf2). done. }
  pose proof (steps_reach _ _ _ Hs3 Hr2) as Hr3.
  destruct (drop_unfinished q s3 w (nt s) c st (Obj KTask (Some (nf s))) (nf s)) as (s4 & Hs4 & Hst4 & Ho4 & Ht4 & _); try done.
  { rewrite Ho3. cbn. by rewrite lookup_insert. }
  { intros o. rewrite Ht3, !not_elem_of_cons. split_and!; try done. intros Ho.
    assert (Hf2 : heap s2 !! nf s = Some (Frame KTask (AwaitLeaf ret_outcome) [] 2 None [])) by (cbn; by rewrite lookup_insert).
    pose proof (finished_frame _ _ _ _ _ _ _ Hr2 Ho Hf2). done. }
  exists s4, (nf s), (nt s), g, u. split_and!.
  - eapply steps_trans; [exact Hs2|]. eapply steps_trans; [exact Hs3|]. by apply steps_one.
  - done.
  - rewrite Ho4, Ho3. cbn. by rewrite delete_insert.
  - by rewrite Ht4, Ht3.
Qed.

Lemma future_now q s w qo cb c st v : reach q s ->
  stack s = Run w (CUser (connect_future dflt (Some (Val v)) qo cb c)) :: st -> qo ∈ alive s ->
  ∃ s' f t g u, steps s s' ∧ stack s' = Run (Co g) (CUser (cb v)) :: Run w (CUser (PDrop u (PDrop t c))) :: st ∧
    objs s' = <[u := Obj KTask (Some g)]> (<[t := Obj KTask (Some f)]> (objs s)) ∧
    trace s' = EObs (Co g) (OConn qo v) :: EAct (Co g) (AAlive qo true) :: EObs (Co g) (OThen v) :: ENow g f (Val v) :: EStart g ::
      ECreate g KTask (CUser (connect_body dflt t qo cb)) w :: EAct w (ACall u g []) ::
      EFinish f (Val v) :: EStart f :: ECreate f KTask (CUser (to_task_body (Some (Val v)))) w :: EAct w (ACall t f []) :: trace s.
Proof.
  intros H Hst Hq. pose proof (fresh_obj _ _ H) as Hno. pose proof (fresh_frame _ _ H) as Hnf.
  set (s2 := State (<[nf s := Frame KTask Final [] 1 (Some (Val v)) []]> (heap s)) (<[nt s := Obj KTask (Some (nf s))]> (objs s)) (alive s) (ctxs s)
    (Run w (CUser (connect dflt (nt s) qo cb (PDrop (nt s) c))) :: st)
    (EFinish (nf s) (Val v) :: EStart (nf s) :: ECreate (nf s) KTask (CUser (to_task_body (Some (Val v)))) w :: EAct w (ACall (nt s) (nf s) []) :: trace s) (S (nf s)) (S (nt s) + 0) (nc s)).
  assert (Hs2 : steps s s2).
  { eapply steps_cons. { unfold TaskModel.step. rewrite Hst. cbn. reflexivity. }
    eapply steps_cons. { unfold TaskModel.step. cbn. unfold finish. cbn. rewrite lookup_insert. cbn. unfold upd. cbn. rewrite alter_insert. reflexivity. }
    apply steps_one. unfold TaskModel.step. cbn. unfold deref. cbn. rewrite lookup_insert. cbn. unfold upd. cbn. rewrite alter_insert. reflexivity. }
  pose proof (steps_reach _ _ _ Hs2 H) as Hr2.
  destruct (connect_now q s2 w (nt s) qo cb (PDrop (nt s) c) st (Obj KTask (Some (nf s))) (nf s) v (Val v)) as (s3 & g & u & Hs3 & Hst3 & Ho3 & Ht3); try done.
  { cbn. by rewrite lookup_insert. }
  { cbn. left. }
  { cbn. by rewrite decide_True. }
  exists s3, (nf s), (nt s), g, u. split_and!; try done. by eapply steps_trans.
Qed.

Lemma future_life q s f k w : reach q s -> ECreate f k (CUser (to_task_body None)) w ∈ trace s ->
  proj (Co f) (trace s) = [] ∨ ∃ o, proj (Co f) (trace s) = [LFinish o; LLeaf o] ∨ proj (Co f) (trace s) = [LLeaf o] ∧ Co f ∈ actors (stack s).
Proof.
  intros H Hc. destruct (co_walk _ _ _ _ _ _ _ _ H Hc) as (r0 & Hw0 & Hs). apply cwalk_user in Hw0 as (r & -> & Hw0).
  apply walk_first in Hw0 as [[? _]|[(e & _ & _ & Ha)|(e & l & p' & E & Ha & Hw)]]; [by left|by inversion Ha|].
  inversion Ha; subst. right. exists o. rewrite E.
  assert ((l = [] ∧ r = Some (ret_outcome o)) ∨ l = [LFinish o]) as [[-> ->]| ->].
  { apply walk_first in Hw as [[-> ->]|[(e & -> & -> & Ha')|(e & l4 & p' & -> & Ha' & Hw)]]; [by left| |by destruct o; inversion Ha'].
    right. destruct o; inversion Ha'; by subst. }
  - right. split; [done|]. destruct (decide (Co f ∈ actors (stack s))) as [?|Hni]; [done|]. destruct (Hs Hni) as [E'|E']; [by rewrite E in E'|].
    exfalso. by destruct o.
  - by left.
Qed.
End facts.
