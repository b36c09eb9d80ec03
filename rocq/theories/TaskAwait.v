(** * When is awaiting a Task or LazyTask object defined? (C97-C99) *)
From stdpp Require Import gmap list.
From Verif Require Import TaskModel TaskInv TaskSpec TaskSafe TaskTrace TaskLegal TaskMore TaskAlive TaskCtx TaskFacts
  TaskLoop TaskParams TaskFacts2 TaskRun TaskLazy.

(** Specification: [awaitable ob tr]: the object [ob] may be awaited after history [tr] - it is a Task, or a LazyTask that
    has a coroutine which was not started yet or has finished. *)
Definition awaitable {V} (ob : tobj) (tr : list (event V)) : Prop :=
  okind ob = KTask ∨ ∃ h, ohandle ob = Some h ∧ (EStart h ∉ tr ∨ ∃ o, EFinish h o ∈ tr).

(** The task object that a piece of code is about to await. *)
Definition awaits {V} (c : code V) : option nat :=
  match c with
  | CUser (PAwait x _) | CUser (PWaitFor _ x _) | CWaitStart _ x _ => Some x
  | _ => None
  end.

Section await.
Context {V : Type} (mv : V -> V) (dflt : V).
Notation reach := (reach mv dflt). Notation step := (step mv dflt).

Lemma phase_init_iff q s h fr : reach q s -> heap s !! h = Some fr ->
  EStart h ∉ trace s <-> ∃ p, fstatus fr = Initial p.
Proof.
  intros H Hf. pose proof (trace_legal _ _ _ _ H) as Hl. pose proof (frame_phase _ _ _ _ _ _ H Hf) as Hp. split.
  - intros Hns. assert (Hq : phase_of h (trace s) = PhInit ∨ phase_of h (trace s) = PhNone).
    { clear Hf Hp. induction (trace s) as [|e tr IH]; [by right|]. destruct Hl as [He Hl].
      assert (IH' : phase_of h tr = PhInit ∨ phase_of h tr = PhNone).
      { apply IH; [done|intros Hin; apply Hns; by right]. }
      destruct e; cbn in *; try done; repeat match goal with |- context [decide (?a = ?b)] => destruct (decide (a = b)); [subst|] end; try done; auto;
        try (destruct_and?; destruct IH'; congruence). exfalso. apply Hns. left. }
    rewrite Hp in Hq. destruct (fstatus fr); cbn in Hq; try (by destruct Hq). eauto.
  - intros [p Es] Hin. destruct (start_not_init _ _ _ Hl Hin) as [Hn _]. apply Hn. by rewrite Hp, Es.
Qed.

(** do_await in a state whose heap, objects agree with a reachable state on the awaited object. *)
Lemma do_await_iff q s f x k ob s0 : reach q s -> objs s !! x = Some ob -> 
  objs s0 !! x = Some ob -> (∀ h fr, heap s !! h = Some fr -> heap s0 !! h = Some fr) ->
  (∃ s', do_await mv f x k s0 = Next s') <-> awaitable ob (trace s).
Proof.
  intros H Hx Hx0 Hh0. destruct (good_reach _ _ _ _ H) as [HI _]. unfold do_await, awaitable. rewrite Hx0.
  destruct (ohandle ob) as [h|] eqn:Hh.
  - destruct (inv_obj _ _ _ _ _ _ _ HI x ob h Hx Hh) as (fr & Hf & Hk). rewrite (Hh0 _ _ Hf).
    destruct (is_final fr) eqn:Hfi.
    + destruct (frame_finished _ _ _ _ _ _ H Hf Hfi) as [o Ho].
      pose proof (frame_result _ _ _ _ _ _ H Hf) as Hr.
      pose proof (result_deliveries mv h _ (trace_legal _ _ _ _ H)) as Hd.
      destruct (result_of mv h (trace s)) as [o1|] eqn:E; [|by destruct Hd as [_ Hd]; destruct (Hd o)].
      unfold take_result. rewrite (Hh0 _ _ Hf), <- Hr. split; [|eauto]. intros _. right. eauto.
    + assert (Hno : ∀ o, EFinish h o ∉ trace s).
      { intros o Ho. pose proof (finished_frame _ _ _ _ _ _ _ H Ho Hf). congruence. }
      destruct (okind ob) eqn:Hkk; [split; eauto|]. split.
      * intros [s' E]. right. exists h. split; [done|]. left. apply (phase_init_iff _ _ _ _ H Hf).
        destruct (fstatus fr); try done. eauto.
      * intros [?|(h' & [= <-] & [Hs|[o Ho]])]; [done| |by destruct (Hno o)].
        apply (phase_init_iff _ _ _ _ H Hf) in Hs as [p ->]. eauto.
  - destruct (okind ob); [split; eauto|]. split; [by intros [s' ?]|by intros [?|(h & ? & _)]].
Qed.

Lemma c97_await q s f x c ob st : reach q s -> stack s = Run (Co f) (CUser (PAwait x c)) :: st -> objs s !! x = Some ob ->
  (∃ s', step s = Next s') <-> awaitable ob (trace s).
Proof.
  intros H Hst Hx. unfold TaskModel.step. rewrite Hst. cbn. eapply do_await_iff; eauto.
Qed.

Lemma c97_waitfor q s w vd x c ob st : reach q s -> stack s = Run w (CUser (PWaitFor vd x c)) :: st -> objs s !! x = Some ob ->
  (∃ s', step s = Next s') <-> awaitable ob (trace s).
Proof.
  intros H Hst Hx. destruct (good_reach _ _ _ _ H) as [HI _].
  assert (Hf : ∀ h, is_Some (heap s !! h) -> h < nf s) by apply (inv_bf _ _ _ _ _ _ _ HI).
  assert (Ht : ∀ y, is_Some (objs s !! y) -> y < nt s) by apply (inv_bt _ _ _ _ _ _ _ HI).
  unfold TaskModel.step. rewrite Hst. cbn. rewrite Hx. eapply do_await_iff; [done|done| |].
  - cbn. rewrite lookup_insert_ne; [done|]. pose proof (Ht x (mk_is_Some _ _ Hx)). lia.
  - cbn. intros h fr Hh. rewrite lookup_insert_ne; [done|]. pose proof (Hf h (mk_is_Some _ _ Hh)). lia.
Qed.

(** C98 *)
Lemma c98 q s f k b w : reach q s -> ECreate f k b w ∈ trace s -> f ∉ finals (stack s) ->
  (∀ x ob, objs s !! x = Some ob -> ohandle ob ≠ Some f) -> EDestroy f ∈ trace s <-> ∃ o, EFinish f o ∈ trace s.
Proof.
  intros H Hc Hn Ho. split.
  - intros Hd. by destruct (c02_after _ _ _ _ _ H Hd) as [? _].
  - intros [o Hf]. by eapply c02_freed.
Qed.

(** C99 *)
Lemma do_await_bad q s f x k s0 r : reach q s -> objs s0 !! x = objs s !! x ->
  (∀ h fr, heap s !! h = Some fr -> heap s0 !! h = Some fr) -> do_await mv f x k s0 = UB r ->
  r = UDeadTask ∨ ∃ ob, objs s !! x = Some ob ∧ ¬ awaitable ob (trace s).
Proof.
  intros H Hx0 Hh0 E. destruct (objs s !! x) as [ob|] eqn:Hx.
  - right. exists ob. split; [done|]. intros Ha.
    apply (do_await_iff q s f x k ob s0) in Ha as [s' Hs]; [|done..]. congruence.
  - left. unfold do_await in E. rewrite Hx0 in E. congruence.
Qed.

Definition lazy_ub (r : ub) : Prop := r = ULazyNull ∨ r = ULazyReawait.

Lemma deref_lazy h (s : state V) r : deref h s = UB r -> ¬ lazy_ub r.
Proof.
  unfold deref, lazy_ub. destruct (heap s !! h) as [fr|]; [|intros [= <-]; naive_solver].
  destruct (frc fr) as [|[|n]]; [intros [= <-]; naive_solver| |done].
  destruct (is_final fr); [done|intros [= <-]; naive_solver].
Qed.
Lemma drop_lazy x (s : state V) r : drop_obj x s = UB r -> ¬ lazy_ub r.
Proof.
  unfold drop_obj. destruct (objs s !! x) as [ob|]; [|intros [= <-]; unfold lazy_ub; naive_solver].
  destruct (ohandle ob); [|done]. apply deref_lazy.
Qed.
Lemma finish_lazy f o (s : state V) r : finish f o s = UB r -> ¬ lazy_ub r.
Proof. unfold finish. destruct (heap s !! f); [done|]. intros [= <-]. unfold lazy_ub. naive_solver. Qed.

(** A step of user code that is not an await does not misuse a LazyTask. *)
Lemma user_lazy w p (s : state V) r : awaits (CUser p) = None -> step_user mv w p s = UB r -> ¬ lazy_ub r.
Proof.
  assert (Hno : ∀ r', UB (V:=V) r' = UB r -> (r' = UDeadTask ∨ r' = UUncaught ∨ r' = UNotCoroutine ∨ r' = UFreedFrame) -> ¬ lazy_ub r).
  { intros r' [= ->]. unfold lazy_ub. intros [->|[->|[->| ->]]] [?|?]; discriminate. }
  intros Ha. unfold step_user. destruct p as [v|e|o p|k ps b c|x c|c|k c|x c|x y p|x p|x c|vd x c|q c|q p]; try done.
  - destruct w; [apply finish_lazy|done].
  - destruct w; [apply finish_lazy|]. intros E. apply (Hno _ E). auto.
  - destruct (move_all ps (objs s) (S (nt s))) as [[m ps']|]; [by destruct k|]. intros E. apply (Hno _ E). auto.
  - destruct w; [done|]. intros E. apply (Hno _ E). auto.
  - destruct (objs s !! x); [done|]. intros E. apply (Hno _ E). auto.
  - destruct (objs s !! x) as [ox|]; [|intros E; apply (Hno _ E); by auto].
    destruct (objs s !! y); [|intros E; apply (Hno _ E); by auto].
    destruct (decide (x = y)); [done|]. destruct (ohandle ox); [apply deref_lazy|done].
  - apply drop_lazy.
  - destruct (objs s !! x) as [ob|]; [|intros E; apply (Hno _ E); by auto].
    destruct (ohandle ob); [|done]. destruct (heap s !! _); [done|]. intros E. apply (Hno _ E). auto.
Qed.

Lemma c99 s r : reach false s -> ub_next mv dflt false s r ->
  r = UDeadTask ∨ r = UUncaught ∨ r = UNotCoroutine ∨
  ∃ w c st x ob, stack s = Run w c :: st ∧ awaits c = Some x ∧ objs s !! x = Some ob ∧ ¬ awaitable ob (trace s).
Proof.
  intros H Hub. pose proof (safe_ub _ _ _ _ _ H Hub) as Hu. destruct (no_quit_ub _ _ _ _ H Hub) as [Hd He].
  assert (Hlz : r = UDeadTask ∨ r = UUncaught ∨ r = UNotCoroutine ∨ lazy_ub r).
  { unfold lazy_ub. clear -Hu Hd He. destruct r; try done; auto 6. }
  destruct Hlz as [?|[?|[?|Hlz]]]; [by auto..|]. 
  assert (Hnd : r ≠ UDeadTask) by (intros ->; destruct Hlz; done).
  do 3 right. destruct (good_reach _ _ _ _ H) as [HI _].
  assert (Hbf : ∀ h, is_Some (heap s !! h) -> h < nf s) by apply (inv_bf _ _ _ _ _ _ _ HI).
  assert (Hbt : ∀ y, is_Some (objs s !! y) -> y < nt s) by apply (inv_bt _ _ _ _ _ _ _ HI).
  destruct Hub as [Hs|(e & Hq & Hs)].
  2:{ exfalso. unfold env_step in Hs. destruct (is_idle mv dflt s); [|done]. destruct e; try done.
      - destruct (heap s !! f) as [fr|]; [|done]. by destruct (fstatus fr).
      - by specialize (Hq eq_refl). }
  unfold TaskModel.step in Hs. destruct (stack s) as [|it st] eqn:Hst; [done|].
  destruct it as [w c|h l|l|x y|w vd x i ent c].
  - exists w, c, st. destruct (awaits c) as [x|] eqn:Ea.
    + exists x. destruct c as [p|i x' h|i o]; [|injection Ea as ->|done]; cbn in Hs.
      * destruct p as [v|e|o p|k ps b c|y c|c|k c|y c|y y' p|y p|y c|vd y c|q c|q p]; try done; injection Ea as ->; cbn in Hs.
        -- destruct w as [f|]; [|destruct Hlz; congruence].
           destruct (do_await_bad _ _ _ _ _ _ _ H (eq_refl : objs (set_stack st s) !! x = _) (λ h fr E, E) Hs) as [?|(ob & ? & ?)]; [done|]. eauto 10.
        -- destruct (objs s !! x) as [ob|] eqn:Hx; [|congruence].
           eapply do_await_bad in Hs; [|exact H| |].
           ++ destruct Hs as [?|(ob' & ? & ?)]; [done|]. exists ob. split_and!; [done|done|done|]. by simplify_eq.
           ++ cbn. rewrite lookup_insert_ne; [done|]. pose proof (Hbt x (mk_is_Some _ _ Hx)). lia.
           ++ cbn. intros h fr Hh. rewrite lookup_insert_ne; [done|]. pose proof (Hbf h (mk_is_Some _ _ Hh)). lia.
      * destruct w as [f|]; [|destruct Hlz; congruence].
        destruct (do_await_bad _ _ _ _ _ _ _ H (eq_refl : objs (set_stack st s) !! x = _) (λ h fr E, E) Hs) as [?|(ob & ? & ?)]; [done|]. eauto 10.
    + exfalso. destruct c as [p|i x h|i o]; [by eapply user_lazy|done|]. cbn in Hs.
      destruct w; [|destruct Hlz; congruence]. destruct (ctxs s !! i); [by eapply finish_lazy|]. congruence.
  - exfalso. destruct l as [|a l]; [by eapply deref_lazy|].
    destruct (heap s !! a) as [fr|]; [|destruct Hlz; congruence].
    destruct (fstatus fr); try (destruct Hlz; congruence).
    destruct (heap s !! _); [|destruct Hlz; congruence].
    destruct (take_result _ _ _) as [[o|] s1]; [done|destruct Hlz; congruence].
  - exfalso. destruct l; [done|]. by eapply drop_lazy.
  - exfalso. destruct (objs s !! x); [|congruence]. destruct (objs s !! y); [done|congruence].
  - exfalso. destruct (ctxs s !! i) as [[o|]|]; [done| |congruence]. by destruct ent.
Qed.

Lemma not_awaitable q s x ob : reach q s -> objs s !! x = Some ob -> ¬ awaitable ob (trace s) ->
  okind ob = KLazy ∧ (ohandle ob = None ∨ ∃ h, ohandle ob = Some h ∧ EStart h ∈ trace s ∧ ∀ o, EFinish h o ∉ trace s).
Proof.
  intros H Hx Hna. destruct (good_reach _ _ _ _ H) as [HI _]. split.
  - destruct (okind ob) eqn:E; [|done]. destruct Hna. by left.
  - destruct (ohandle ob) as [h|] eqn:Hh; [|by left]. right. exists h. split; [done|].
    destruct (inv_obj _ _ _ _ _ _ _ HI x ob h Hx Hh) as (fr & Hf & _). split.
    + assert (Hdec : EStart h ∈ trace s ∨ EStart h ∉ trace s).
      { clear. induction (trace s) as [|e tr IH]; [right; by intros ?%elem_of_nil|].
        destruct IH as [?|Hn]; [left; by right|]. destruct e; try (right; intros [?|?]%elem_of_cons; [discriminate|done]).
        destruct (decide (f = h)) as [->|Hne]; [left; left|]. right. intros [[= ?]|?]%elem_of_cons; [by subst|done]. }
      destruct Hdec as [?|Hs]; [done|]. destruct Hna. right. eauto.
    + intros o Ho. apply Hna. right. eauto.
Qed.
End await.
