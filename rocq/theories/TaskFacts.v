(** * Property lemmas of the Task machine (proofs; the statements are repeated in PropsTask.v). *)
From stdpp Require Import gmap list.
From Verif Require Import TaskModel TaskInv TaskSafe TaskView TaskSpec TaskTrace TaskWalk TaskLegal TaskMore
  TaskAlive TaskCtx.

Section facts.
Context {V : Type} (mv : V -> V) (dflt : V).
Notation state := (state V). Notation item := (item V). Notation frame := (frame V).
Notation event := (event V). Notation code := (code V).
Notation step := (step mv dflt). Notation env_step := (env_step mv dflt).
Notation reach := (reach mv dflt). Notation ub_next := (ub_next mv dflt).
Notation legal_trace := (legal_trace mv).

Lemma frame_phase q s f fr : reach q s -> heap s !! f = Some fr -> phase_of f (trace s) = sphase (fstatus fr).
Proof.
  intros H Hf. apply r_reach in H. pose proof (r_loc _ _ _ _ _ _ H f) as Hl. cbn in Hl.
  rewrite lookup_fmap, Hf in Hl. cbn in Hl. by destruct Hl as [? _].
Qed.

Lemma no_frame_phase q s f : reach q s -> heap s !! f = None ->
  phase_of f (trace s) = PhNone ∨ phase_of f (trace s) = PhGone.
Proof.
  intros H Hf. apply r_reach in H. pose proof (r_loc _ _ _ _ _ _ H f) as Hl. cbn in Hl.
  rewrite lookup_fmap, Hf in Hl. cbn in Hl. destruct Hl as [[? _]|?]; auto.
Qed.

Lemma frame_result q s f fr : reach q s -> heap s !! f = Some fr -> result_of mv f (trace s) = fresult fr.
Proof.
  intros H Hf. apply r_reach in H. pose proof (r_loc _ _ _ _ _ _ H f) as Hl. cbn in Hl.
  rewrite lookup_fmap, Hf in Hl. cbn in Hl. by destruct Hl as (_ & ? & _).
Qed.

Lemma frame_create q s f fr : reach q s -> heap s !! f = Some fr -> ∃ b w, ECreate f (fkind fr) b w ∈ trace s.
Proof.
  intros H Hf. apply r_reach in H. pose proof (r_loc _ _ _ _ _ _ H f) as Hl. cbn in Hl.
  rewrite lookup_fmap, Hf in Hl. cbn in Hl. by destruct Hl as (_ & _ & ?).
Qed.

Lemma pending_norm h (hp : gmap nat frame) st : pending h (norm <$> hp) (kept st) = pending h hp st.
Proof.
  unfold pending. rewrite lookup_fmap. destruct (hp !! h) as [fr|]; [|done]. cbn.
  assert (is_final (norm fr) = is_final fr) as -> by done. destruct (is_final fr); [|done].
  clear. induction st as [|i st IH]; [done|]. unfold kept in *. cbn [List.filter].
  destruct i; cbn [keep]; rewrite ?fin_list_cons, ?IH; done.
Qed.

Lemma queue_pending q s h : reach q s -> queue h (trace s) = pending h (heap s) (stack s).
Proof.
  intros H. apply r_reach in H. pose proof (r_queue _ _ _ _ _ _ H h) as E. cbn in E. rewrite E. apply pending_norm.
Qed.

Lemma finished_frame q s f o fr : reach q s -> EFinish f o ∈ trace s -> heap s !! f = Some fr -> is_final fr = true.
Proof.
  intros H Hin Hf. pose proof (trace_legal _ _ _ _ H) as Hl. pose proof (frame_phase _ _ _ _ H Hf) as Hp.
  unfold is_final. destruct (phase_finished mv f o _ Hl Hin) as [E|E]; rewrite E in Hp; by destruct (fstatus fr).
Qed.

Lemma frame_finished q s f fr : reach q s -> heap s !! f = Some fr -> is_final fr = true -> ∃ o, EFinish f o ∈ trace s.
Proof.
  intros H Hf Hfin. pose proof (trace_legal _ _ _ _ H) as Hl. pose proof (frame_phase _ _ _ _ H Hf) as Hp.
  apply (fin_finished mv); [done|]. left. rewrite Hp. unfold is_final in Hfin. by destruct (fstatus fr).
Qed.

(** ** C01 *)
Lemma c01 q s : reach q s ->
  ¬ ub_next q s UFreedFrame ∧ ¬ ub_next q s UBadResume ∧ ¬ ub_next q s UNoResult ∧
  ¬ ub_next q s URefUnderflow ∧ ¬ ub_next q s UDestroyRunning.
Proof. intros H. split_and!; intros Hu; apply (safe_ub _ _ _ _ _ H Hu). Qed.

(** ** C02 *)
Lemma c02_exists q s f : reach q s ->
  (∃ fr, heap s !! f = Some fr) <-> (∃ k b w, ECreate f k b w ∈ trace s) ∧ EDestroy f ∉ trace s.
Proof.
  intros H. pose proof (trace_legal _ _ _ _ H) as Hl. split.
  - intros [fr Hf]. split.
    + destruct (frame_create _ _ _ _ H Hf) as (b & w & ?). eauto.
    + intros Hd. apply (phase_gone mv) in Hd; [|done]. rewrite (frame_phase _ _ _ _ H Hf) in Hd. by destruct (fstatus fr).
  - intros [(k & b & w & Hc) Hd]. destruct (heap s !! f) as [fr|] eqn:E; [eauto|]. exfalso.
    destruct (no_frame_phase _ _ _ H E) as [Hp|Hp].
    + by eapply phase_created.
    + by apply gone_destroyed in Hp.
Qed.

Lemma c02_after q s f : reach q s -> EDestroy f ∈ trace s ->
  (∃ o, EFinish f o ∈ trace s) ∧ queue f (trace s) = [] ∧ ∀ x ob, objs s !! x = Some ob -> ohandle ob ≠ Some f.
Proof.
  intros H Hd. pose proof (trace_legal _ _ _ _ H) as Hl. pose proof (phase_gone mv _ _ Hl Hd) as Hp.
  assert (Hn : heap s !! f = None).
  { destruct (heap s !! f) as [fr|] eqn:E; [|done]. rewrite (frame_phase _ _ _ _ H E) in Hp. by destruct (fstatus fr). }
  split_and!.
  - apply (fin_finished mv); auto.
  - rewrite (queue_pending _ _ _ H). unfold pending. by rewrite Hn.
  - intros x ob Hx Hh. destruct (good_reach _ _ _ _ H) as [HI _].
    destruct (inv_obj _ _ _ _ _ _ _ HI x ob f Hx Hh) as (fr & ? & _). congruence.
Qed.

Lemma c02_freed q s f o : reach q s -> EFinish f o ∈ trace s -> f ∉ finals (stack s) ->
  (∀ x ob, objs s !! x = Some ob -> ohandle ob ≠ Some f) -> EDestroy f ∈ trace s.
Proof.
  intros H Hfin Hns Hno. pose proof (trace_legal _ _ _ _ H) as Hl.
  destruct (heap s !! f) as [fr|] eqn:E.
  - exfalso. destruct (good_reach _ _ _ _ H) as [HI _]. destruct (inv_rc _ _ _ _ _ _ _ HI f fr E) as [Hrc Hpos].
    rewrite (refs_zero_intro _ _ Hno) in Hrc. unfold sref, xcount in Hrc.
    rewrite (finished_frame _ _ _ _ _ H Hfin E) in Hrc. rewrite !decide_False in Hrc by done. lia.
  - destruct (no_frame_phase _ _ _ H E) as [Hp|Hp]; [|by apply gone_destroyed].
    destruct (phase_finished mv _ _ _ Hl Hfin); congruence.
Qed.

Lemma c02_once q s f l1 l2 : reach q s -> trace s = l1 ++ EDestroy f :: l2 ->
  EDestroy f ∉ l1 ∧ EDestroy f ∉ l2 ∧ (∃ o, EFinish f o ∈ l2) ∧ ∀ e, e ∈ l1 -> by_actor e ≠ Some (Co f).
Proof.
  intros H E. pose proof (trace_legal _ _ _ _ H) as Hl. rewrite E in Hl.
  pose proof (legal_app _ _ _ Hl) as [Hd Hl2]. cbn in Hd. destruct Hd as [Hp _].
  assert (H2 : EDestroy f ∉ l2).
  { intros Hin. apply (phase_gone mv) in Hin; [|done]. congruence. }
  assert (Hg : ∀ l1' e l1'', l1 = l1' ++ e :: l1'' -> phase_of f (l1'' ++ EDestroy f :: l2) = PhGone ∧ legal mv e (l1'' ++ EDestroy f :: l2)).
  { intros l1' e l1'' ->. rewrite <- app_assoc in Hl. cbn in Hl. pose proof (legal_app _ _ _ Hl) as [He Hl1].
    split; [|done]. apply (phase_gone mv); [done|]. apply elem_of_app. right. left. }
  split_and!; [|done| |].
  - intros Hin. apply elem_of_list_split in Hin as (a & b & ->). destruct (Hg a _ b eq_refl) as [Hp1 He]. cbn in He.
    destruct He. congruence.
  - apply (fin_finished mv); auto.
  - intros e Hin Hby. apply elem_of_list_split in Hin as (a & b & ->). destruct (Hg a e b eq_refl) as [Hp1 He].
    destruct e; cbn in Hby, He; simplify_eq; cbn in He; destruct_and?; congruence.
Qed.

(** ** C03 *)
Lemma c03 q s f h : reach q s -> h ∉ finals (stack s) -> phase_of f (trace s) = PhWait h ->
  ∀ o, EFinish h o ∉ trace s.
Proof.
  intros H Hns Hp o Hfin. destruct (heap s !! f) as [fr|] eqn:E.
  2:{ destruct (no_frame_phase _ _ _ H E); congruence. }
  rewrite (frame_phase _ _ _ _ H E) in Hp. destruct (fstatus fr) eqn:Es; try done. cbn in Hp. injection Hp as ->.
  destruct (good_reach _ _ _ _ H) as [HI _]. pose proof (inv_aw _ _ _ _ _ _ _ HI f fr h k E Es) as Hpend.
  unfold pending in Hpend. destruct (heap s !! h) as [fh|] eqn:Eh; [|by apply elem_of_nil in Hpend].
  rewrite (finished_frame _ _ _ _ _ H Hfin Eh) in Hpend. rewrite fin_list_notin in Hpend by done.
  by apply elem_of_nil in Hpend.
Qed.

(** ** C04 *)
Lemma c04_order q s h : reach q s -> waits h (trace s) = wakes h (trace s) ++ queue h (trace s).
Proof. intros H. eapply waits_split, trace_legal. exact H. Qed.

Lemma c04_after q s f h o l1 l2 : reach q s -> trace s = l1 ++ EWake f h o :: l2 -> ∃ o', EFinish h o' ∈ l2.
Proof.
  intros H E. pose proof (trace_legal _ _ _ _ H) as Hl. rewrite E in Hl.
  pose proof (legal_app _ _ _ Hl) as [Hd Hl2]. cbn in Hd. destruct Hd as (_ & Hp & _).
  apply (fin_finished mv); auto.
Qed.

Lemma c04_all q s h o : reach q s -> EFinish h o ∈ trace s -> h ∉ finals (stack s) ->
  wakes h (trace s) = waits h (trace s).
Proof.
  intros H Hfin Hns. rewrite (c04_order _ _ _ H). rewrite (queue_pending _ _ _ H). unfold pending.
  destruct (heap s !! h) as [fr|] eqn:E; [|by rewrite app_nil_r].
  rewrite (finished_frame _ _ _ _ _ H Hfin E), fin_list_notin by done. by rewrite app_nil_r.
Qed.

(** ** C05 *)
Lemma c05 q s h : reach q s -> ∀ o, EFinish h o ∈ trace s ->
  ∀ i x, deliveries h (trace s) !! i = Some x -> x = Nat.iter i (consumed mv) o.
Proof.
  intros H o Hfin i x Hx. pose proof (trace_legal _ _ _ _ H) as Hl.
  pose proof (result_deliveries mv h _ Hl) as Hr. destruct (result_of mv h (trace s)) as [r|].
  - destruct Hr as (o' & Hin & _ & Hi). rewrite (finish_unique mv _ _ _ _ Hl Hfin Hin). eauto.
  - destruct Hr as [_ Hr]. by destruct (Hr o).
Qed.

Lemma c05_none q s h : reach q s -> (∀ o, EFinish h o ∉ trace s) -> deliveries h (trace s) = [].
Proof.
  intros H Hn. pose proof (result_deliveries mv h _ (trace_legal _ _ _ _ H)) as Hr.
  destruct (result_of mv h (trace s)) as [r|]; [|by destruct Hr]. destruct Hr as (o & Hin & _). by destruct (Hn o).
Qed.

Lemma iter_consumed_exc i e : Nat.iter i (consumed mv) (Exc e) = Exc e.
Proof. induction i as [|i IH]; [done|]. change (consumed mv (Nat.iter i (consumed mv) (Exc e)) = Exc e). by rewrite IH. Qed.
Lemma iter_consumed_val i v : Nat.iter i (consumed mv) (Val v) = Val (Nat.iter i mv v).
Proof. induction i as [|i IH]; [done|].
  change (consumed mv (Nat.iter i (consumed mv) (Val v)) = Val (mv (Nat.iter i mv v))). by rewrite IH. Qed.

(** ** C07 *)
Lemma c07_start q s f b w : reach q s -> ECreate f KTask b w ∈ trace s ->
  ∃ l1 l2, trace s = l1 ++ EStart f :: ECreate f KTask b w :: l2.
Proof.
  intros H Hc0. pose proof Hc0 as Hc. pose proof (trace_legal _ _ _ _ H) as Hl.
  assert (Hni : phase_of f (trace s) ≠ PhInit).
  { intros Hp. destruct (heap s !! f) as [fr|] eqn:E.
    2:{ destruct (no_frame_phase _ _ _ H E); congruence. }
    rewrite (frame_phase _ _ _ _ H E) in Hp. destruct (fstatus fr) eqn:Es; try done.
    destruct (good_reach _ _ _ _ H) as [HI _]. pose proof (inv_lazy _ _ _ _ _ _ _ HI f fr p E Es) as Hk.
    destruct (frame_create _ _ _ _ H E) as (b' & w' & Hc'). rewrite Hk in Hc'.
    by destruct (created_unique mv _ _ _ _ _ _ _ _ Hl Hc Hc'). }
  apply elem_of_list_split in Hc as (l1 & l2 & E). rewrite E in *. clear E.
  induction l1 as [|e l1 IH] using rev_ind; cbn in *.
  { exfalso. apply Hni. by rewrite decide_True. }
  clear IH. rewrite <- app_assoc in *. cbn in *.
  assert (Hgen : ∀ l : list event, legal_trace (l ++ ECreate f KTask b w :: l2) ->
     phase_of f (l ++ ECreate f KTask b w :: l2) ≠ PhInit -> ∃ l', l = l' ++ [EStart f]).
  { clear. induction l as [|e l IH]; cbn; [by rewrite decide_True|].
    intros [He Hleg] Hp. 
    assert (Hdec : phase_of f (l ++ ECreate f KTask b w :: l2) = PhInit ∨ phase_of f (l ++ ECreate f KTask b w :: l2) ≠ PhInit)
      by (destruct (phase_of f _); auto).
    destruct Hdec as [Hi|Hi].
    2:{ destruct (IH Hleg Hi) as [l' ->]. by exists (e :: l'). }
    clear IH.
    assert (e = EStart f) as ->.
    { destruct e; cbn in Hp, He; try done;
        repeat match goal with H : context [decide (?a = ?b)] |- _ => destruct (decide (a = b)); [subst|] end; try done;
        try (destruct_and?; congruence). }
    cbn in He. destruct He as [_ [(b' & w' & l' & E)|(g & l' & E & b' & w' & Hin)]].
    - destruct l as [|e' l]; cbn in E; [by exists []|].
      exfalso. injection E as -> E. destruct Hleg as [[Hph _] Hleg].
      apply (phase_created mv f KTask b w (l ++ ECreate f KTask b w :: l2)); [done| |done].
      apply elem_of_app. right. left.
    - exfalso. destruct l as [|e' l]; cbn in E; [done|]. injection E as -> E. rewrite <- E in Hin.
      destruct Hleg as [_ Hleg].
      assert (Hc : ECreate f KTask b w ∈ l ++ ECreate f KTask b w :: l2) by (apply elem_of_app; right; left).
      by destruct (created_unique mv _ _ _ _ _ _ _ _ Hleg Hc Hin). }
  destruct (Hgen (l1 ++ [e])) as [l' E].
  { by rewrite <- app_assoc. }
  { by rewrite <- app_assoc. }
  apply app_inj_tail in E as [-> ->]. eauto.
Qed.

Lemma eager_app (l1 l2 : list event) : eager_trace (l1 ++ l2) -> eager_trace l2.
Proof. induction l1 as [|e l1 IH]; [done|]. intros [_ H]. auto. Qed.

Lemma c07_caller q s f b w e l1 l2 : reach q s -> trace s = l1 ++ e :: l2 ->
  ECreate f KTask b w ∈ l2 -> by_actor e = Some w -> ∃ e', e' ∈ l2 ∧ leaves f e'.
Proof.
  intros H E Hc Hby. pose proof (eager _ _ _ _ H) as He. rewrite E in He.
  apply eager_app in He as [He _].
  assert (Hd : ∀ l : list event, (∃ e', e' ∈ l ∧ leaves f e') ∨ never_left f l).
  { induction l as [|x l IH]; [right; by intros ? ?%elem_of_nil|].
    assert (Hx : leaves f x ∨ ¬ leaves f x).
    { destruct x; cbn; try (right; by intros ?); destruct (decide (f0 = f)); auto. }
    destruct Hx as [Hx|Hx]; [left; exists x; split; [left|done]|].
    destruct IH as [(y & ? & ?)|IH]; [left; exists y; split; [by right|done]|].
    right. intros y [->|Hy]%elem_of_cons; [done|by apply IH]. }
  destruct (Hd l2) as [?|Hx]; [done|]. exfalso. eapply He; [exact Hc|exact Hx|exact Hby].
Qed.

(** ** C08 *)
Lemma take_result_some h (s : state) fr o : heap s !! h = Some fr -> fresult fr = Some o ->
  take_result mv h s = (Some o, upd h (fr_result (Some (consumed mv o))) s).
Proof. intros Hh Hr. unfold take_result. by rewrite Hh, Hr. Qed.

Lemma c08 q s f x c h ob st o0 : reach q s -> stack s = Run (Co f) (CUser (PAwait x c)) :: st ->
  objs s !! x = Some ob -> ohandle ob = Some h -> EFinish h o0 ∈ trace s ->
  ∃ s' o, step s = Next s' ∧ stack s' = Run (Co f) (CUser (c o)) :: st ∧ trace s' = ENow f h o :: trace s ∧
    result_of mv h (trace s) = Some o.
Proof.
  intros H Hst Hx Hh Hfin. destruct (good_reach _ _ _ _ H) as [HI _].
  destruct (inv_obj _ _ _ _ _ _ _ HI x ob h Hx Hh) as (fr & Hf & _).
  pose proof (finished_frame _ _ _ _ _ H Hfin Hf) as Hfi.
  pose proof (frame_result _ _ _ _ H Hf) as Hr.
  pose proof (result_deliveries mv h _ (trace_legal _ _ _ _ H)) as Hd.
  destruct (result_of mv h (trace s)) as [o|] eqn:E; [|by destruct Hd as [_ Hd]; destruct (Hd o0)].
  unfold TaskModel.step. rewrite Hst. cbn. unfold do_await. cbn. rewrite Hx, Hh, Hf, Hfi.
  rewrite (take_result_some h (set_stack st s) fr o) by done.
  eexists _, o. split_and!; reflexivity.
Qed.

(** ** C09 *)
Lemma c09_hang q s f x c ob st : reach q s -> stack s = Run (Co f) (CUser (PAwait x c)) :: st ->
  objs s !! x = Some ob -> okind ob = KTask -> ohandle ob = None ->
  ∃ s', step s = Next s' ∧ stack s' = st ∧ trace s' = EHang f :: trace s.
Proof.
  intros H Hst Hx Hk Hh. unfold TaskModel.step. rewrite Hst. cbn. unfold do_await. cbn. rewrite Hx, Hh, Hk.
  eexists. split_and!; reflexivity.
Qed.

Lemma c09_forever q s f l1 l2 : reach q s -> trace s = l1 ++ EHang f :: l2 ->
  ∀ e, e ∈ l1 -> by_actor e ≠ Some (Co f) ∧ e ≠ EDestroy f.
Proof.
  intros H E e Hin. pose proof (trace_legal _ _ _ _ H) as Hl. rewrite E in Hl.
  apply elem_of_list_split in Hin as (a & b & ->). rewrite <- app_assoc in Hl. cbn in Hl.
  pose proof (legal_app _ _ _ Hl) as [He Hl1].
  assert (Hp : phase_of f (b ++ EHang f :: l2) = PhHung).
  { apply (hung_forever mv); [done|]. apply elem_of_app. right. left. }
  split.
  - intros Hby. destruct e; cbn in Hby, He; simplify_eq; cbn in He; destruct_and?; congruence.
  - intros ->. cbn in He. destruct He. congruence.
Qed.

(** ** C10 *)
Lemma c10_move s w x c st ob : stack s = Run w (CUser (PMove x c)) :: st -> objs s !! x = Some ob ->
  objs s !! nt s = None ->
  ∃ s', step s = Next s' ∧ stack s' = Run w (CUser (c (nt s))) :: st ∧ heap s' = heap s ∧
    objs s' !! nt s = Some ob ∧ objs s' !! x = Some (Obj (okind ob) None) ∧
    (∀ y, y ≠ x -> y ≠ nt s -> objs s' !! y = objs s !! y) ∧ ∀ f, refs (objs s') f = refs (objs s) f.
Proof.
  intros Hst Hx Hn. unfold TaskModel.step. rewrite Hst. cbn. rewrite Hx. eexists.
  split_and!; try reflexivity; cbn.
  - by rewrite lookup_insert.
  - rewrite lookup_insert_ne by congruence. by rewrite lookup_insert.
  - intros y Hy1 Hy2. by rewrite !lookup_insert_ne.
  - intros f. rewrite refs_insert_fresh by (rewrite lookup_insert_ne by congruence; done).
    pose proof (refs_insert (objs s) x ob (Obj (okind ob) None) f Hx) as E. rewrite hcount_none in E. lia.
Qed.

Lemma c10_self s w x p st ob : stack s = Run w (CUser (PAssign x x p)) :: st -> objs s !! x = Some ob ->
  ∃ s', step s = Next s' ∧ stack s' = Run w (CUser p) :: st ∧ heap s' = heap s ∧ objs s' = objs s.
Proof.
  intros Hst Hx. unfold TaskModel.step. rewrite Hst. cbn. rewrite Hx. rewrite decide_True by done.
  eexists. split_and!; reflexivity.
Qed.

Lemma c10_owner q s f fr : reach q s -> heap s !! f = Some fr ->
  frc fr = refs (objs s) f + (if is_final fr then (if decide (f ∈ finals (stack s)) then 1 else 0) else 1).
Proof.
  intros H Hf. destruct (good_reach _ _ _ _ H) as [HI _]. destruct (inv_rc _ _ _ _ _ _ _ HI f fr Hf) as [Hrc _].
  unfold sref, xcount in Hrc. rewrite (decide_False (P := None = Some f)) in Hrc by done. lia.
Qed.

End facts.
