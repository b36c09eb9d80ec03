(** * Property theorems C23-C28 (Generator).

    Vocabulary: GenModel.v (the machine), GenSpec.v (trace vocabulary). [greach s]: [s] is reachable by calling any plain
    functions one after the other; traces are newest first. *)
From stdpp Require Import gmap list.
From Verif Require Import GenModel GenSpec GenInv GenFacts GenLoop GenFacts2 GenCall GenRun TaskRun.

(** ** C23 *)

(** A range-based for loop over generator object [g] whose coroutine [f] (with body [b]) was not touched yet: if the body
    co_yields [vs] and ends with [r] (None: normally, Some e: exception e), then the loop runs to its end without undefined
    behaviour, the loop body got exactly [vs] in order, the generator yielded exactly [vs] and its body has ended. *)
Theorem C23_foreach_gets_all {V E} (s : gstate V E) w g f b vs r k st : greach s ->
  gstack s = GRun w (gforeach g k) :: st -> gens s !! g = Some (Some f) ->
  GENew f b ∈ gtrace s -> (∀ v, GEResume f v ∉ gtrace s) -> yields b vs r ->
  ∃ s', gsteps s s' ∧ gstack s' = GRun w (k r) :: st ∧ got w (gtrace s') = got w (gtrace s) ++ vs ∧
    yielded f (gtrace s') = vs ∧ GEFinish f r ∈ gtrace s'.
Proof.
  intros HR Hst Hg Hn Hnr Hy. destruct (inv_reach _ HR) as [HH HO].
  assert (Hnd : GEDestroy f ∉ gtrace s).
  { intros Hd. pose proof (gone_stays _ _ (h_legal _ _ _ _ HH) Hd) as Hx. destruct (o_gh _ _ _ _ HO g f Hg) as [fr Hf].
    rewrite (h_some _ _ _ _ HH f fr Hf) in Hx. by destruct (gstat fr). }
  destruct (fresh_frame f b s HR Hn Hnr Hnd) as [Hf Hy0].
  destruct (foreach_all w g f b vs r k s st Hy Hst Hg Hf) as (s' & ? & ? & ? & Hy1 & ?). exists s'. rewrite Hy0 in Hy1. done.
Qed.
Print Assumptions C23_foreach_gets_all.
Example ex_C23_foreach_gets_all : ∃ s w g f b vs r k st, greach s ∧ gstack s = GRun w (gforeach (V:=nat) (E:=nat) g k) :: st ∧
  gens s !! g = Some (Some f) ∧ GENew f b ∈ gtrace s ∧ (∀ v, GEResume f v ∉ gtrace s) ∧ yields b vs r ∧ length vs = 2.
Proof.
  exists (grun (iterate two_throw) 1), (Fun 0), 0, 1, two_throw, [10; 11], (Some 7), (λ _, GDrop 0 (GRet tt)), [].
  split; [apply grun_reach|]. split; [reflexivity|]. split; [reflexivity|]. split; [in_|]. split; [|split; [apply yields_two_throw|done]].
  intros v Hin. cbn in Hin. rewrite !elem_of_cons in Hin. destruct Hin as [?|[?|Hin]]; [done|done|by apply elem_of_nil in Hin].
Qed.

(** The same for generators that never end (or are abandoned): every prefix of the values is delivered, and at that moment
    the body has produced nothing beyond it. *)
Theorem C23_foreach_gets_prefix {V E} (s : gstate V E) w g f b vs k st : greach s ->
  gstack s = GRun w (gforeach g k) :: st -> gens s !! g = Some (Some f) ->
  GENew f b ∈ gtrace s -> (∀ v, GEResume f v ∉ gtrace s) -> yields_prefix b vs ->
  ∃ s', gsteps s s' ∧ got w (gtrace s') = got w (gtrace s) ++ vs ∧ yielded f (gtrace s') = vs.
Proof.
  intros HR Hst Hg Hn Hnr Hy. destruct (inv_reach _ HR) as [HH HO].
  assert (Hnd : GEDestroy f ∉ gtrace s).
  { intros Hd. pose proof (gone_stays _ _ (h_legal _ _ _ _ HH) Hd) as Hx. destruct (o_gh _ _ _ _ HO g f Hg) as [fr Hf].
    rewrite (h_some _ _ _ _ HH f fr Hf) in Hx. by destruct (gstat fr). }
  destruct (fresh_frame f b s HR Hn Hnr Hnd) as [Hf Hy0].
  destruct (foreach_prefix w g f b vs k s st Hy Hst Hg Hf) as (s' & ? & ? & Hy1). exists s'. rewrite Hy0 in Hy1. done.
Qed.
Print Assumptions C23_foreach_gets_prefix.
Example ex_C23_foreach_gets_prefix n : yields_prefix (from 0) (seq 0 n) ∧ yielded 1 (gtrace (grun (iterate (from 0)) 40)) = seq 0 7.
Proof.
  split; [|vm_compute; reflexivity]. generalize 0. induction n as [|n IH]; intros m; [constructor|].
  replace (from m) with (gfrob (from m)) by (symmetry; apply gfrob_eq). cbn. constructor. apply IH.
Qed.

(** In any program: what an iterator reads is the last value its body co_yielded (unless overwritten through an iterator),
    and the body is suspended at that co_yield. *)
Theorem C23_deref_is_last_yield {V E} (s : gstate V E) w f v l1 l2 : greach s -> gtrace s = l1 ++ GEAct w (ADeref f v) :: l2 ->
  (∀ w' v', GEAct w' (AWrite f v') ∉ l2) -> last (yielded f l2) = Some v ∧ gphase_of f l2 = QSusp.
Proof.
  intros HR Ht Hw. pose proof (h_legal _ _ _ _ (proj1 (inv_reach _ HR))) as Hl. rewrite Ht in Hl.
  apply glegal_app in Hl as [[_ [Hp Hc]] _]. split; [|done]. by rewrite <- cur_last.
Qed.
Print Assumptions C23_deref_is_last_yield.
Example ex_C23_deref_is_last_yield : ∃ l1 l2, gtrace (grun (iterate two_vals) 100) = l1 ++ GEAct (Fun 0) (ADeref 1 11) :: l2 ∧
  yielded 1 l2 = [10; 11].
Proof. eexists [_; _; _; _; _; _; _], _. vm_compute. done. Qed.

(** In any program: the events of a generator coroutine are a run of its body: nothing is skipped, repeated or reordered. *)
Theorem C23_body_runs_as_written {V E} (s : gstate V E) f b : greach s -> GENew f b ∈ gtrace s -> ∃ x, gwalk b (gproj f (gtrace s)) x.
Proof. intros HR Hn. destruct (wi_reach s HR f b Hn) as (r & Hw & _). eauto. Qed.
Print Assumptions C23_body_runs_as_written.
Example ex_C23_body_runs_as_written : GENew 1 two_throw ∈ gtrace (grun (iterate two_throw) 100) ∧
  gproj 1 (gtrace (grun (iterate two_throw) 100)) =
    [GLFinish (Some 7); GLResume (Some 11); GLYield 11; GLObs (GUser 1); GLResume (Some 10); GLYield 10; GLResume None].
Proof. split; [in_|vm_compute; reflexivity]. Qed.

(** ** C24 *)
(** No event of a body before its first resumption ... *)
Theorem C24_lazy_start {V E} (s : gstate V E) f e l1 l2 : greach s -> gtrace s = l1 ++ e :: l2 -> by_gen e = Some f -> ∃ v, GEResume f v ∈ l2.
Proof. intros HR Ht Hb. eapply lazy_start; [|exact Ht|exact Hb]. apply (h_legal _ _ _ _ (proj1 (inv_reach _ HR))). Qed.
Print Assumptions C24_lazy_start.
Example ex_C24_lazy_start : ∃ e l1 l2, gtrace (grun (iterate two_vals) 3) = l1 ++ e :: l2 ∧ by_gen e = Some 1.
Proof. eexists _, [], _. vm_compute. done. Qed.

(** ... and resumptions come only from begin() and ++it. *)
Theorem C24_resumed_only_on_demand {V E} (s s' : gstate V E) f v : greach s -> gstep s = GNext s' -> gtrace s' = GEResume f v :: gtrace s ->
  (∃ w g c st, gstack s = GRun w (GBegin g c) :: st ∧ gens s !! g = Some (Some f)) ∨
  (∃ w i c st, gstack s = GRun w (GInc i c) :: st ∧ iters s !! i = Some (Some f)).
Proof.
  intros HR Hs Ht. destruct (step_events s s' (inv_reach _ HR) Hs) as (evs & Hev & Hsrc). rewrite Ht in Hev.
  apply (app_inv_tail _ [_]) in Hev. subst evs. exact (Hsrc _ (elem_of_list_here _ _)).
Qed.
Print Assumptions C24_resumed_only_on_demand.
Example ex_C24_resumed_only_on_demand : ∃ s s', greach s ∧ gstep (V:=nat) (E:=nat) s = GNext s' ∧ gtrace s' = GEResume 1 (Some 10) :: gtrace s.
Proof. exists (grun (iterate two_vals) 9). eexists. split; [apply grun_reach|]. vm_compute. done. Qed.

(** One ++it runs the body to exactly one further co_yield (or to its end): when control first gets back to the increment,
    the body has stopped exactly once more, and in the meantime exactly one resumption of it took place. *)
Theorem C24_one_step_per_increment {V E} (s s1 s2 : gstate V E) w i c st f : greach s ->
  gstack s = GRun w (GInc i c) :: st -> iters s !! i = Some (Some f) -> gstep s = GNext s1 ->
  gduring (GAfterInc w i c :: st) s1 s2 -> gstack s2 = GAfterInc w i c :: st ->
  gsum (is_stop f) (gtrace s2) = S (gsum (is_stop f) (gtrace s)) ∧
  gsum (is_resume f) (gtrace s2) = S (gsum (is_resume f) (gtrace s)).
Proof.
  intros HR Hst Hi Hs Hd Hst2.
  assert (HR1 : greach s1) by (by eapply gexec_step).
  assert (∃ p v, gstack s1 = GRun (Gen f) p :: GAfterInc w i c :: st ∧ gtrace s1 = GEResume f v :: gtrace s) as (p & v & Hst1 & Ht1).
  { unfold gstep in Hs. rewrite Hst in Hs. cbn in Hs. rewrite Hi in Hs. unfold gresume in Hs. cbn in Hs.
    destruct (gheap s !! f) as [fr|]; [|done]. destruct (gstat fr); try done; injection Hs as <-; cbn; eauto. }
  destruct (during_one f _ p s1 s2 HR1 Hst1 Hd) as [HR2 [[_ Hc]|[(l & y & Hl & _) _]]].
  2:{ exfalso. rewrite Hst2 in Hl. apply (f_equal length) in Hl. rewrite app_length in Hl. cbn in Hl. lia. }
  assert (Hst_eq : gsum (is_stop f) (gtrace s1) = gsum (is_stop f) (gtrace s)) by (by rewrite Ht1).
  split; [congruence|].
  pose proof (lockstep f _ (h_legal _ _ _ _ (proj1 (inv_reach _ HR)))) as L.
  pose proof (lockstep f _ (h_legal _ _ _ _ (proj1 (inv_reach _ HR2)))) as L2.
  assert (Hp : gphase_of f (gtrace s) ≠ QRun).
  { pose proof (h_legal _ _ _ _ (proj1 (inv_reach _ HR1))) as Hl. rewrite Ht1 in Hl. destruct Hl as [Hl _].
    destruct v; cbn in Hl; [destruct Hl as [-> _]|rewrite Hl]; done. }
  assert (Hp2 : gphase_of f (gtrace s2) ≠ QRun).
  { destruct (a_top _ (ai_reach _ HR2) _ _ _ _ Hst2) as (f' & fr & Hi' & Hf' & Hnr).
    assert (f' = f) as ->.
    { assert (Hk : iters s2 !! i = Some (Some f)); [|congruence].
      assert (Hgen : greach s2 ∧ (iters s2 !! i = Some (Some f))); [|tauto].
      clear -HR1 Hst1 Hd Hi Hs Hst. 
      assert (Hi1 : iters s1 !! i = Some (Some f)).
      { unfold gstep in Hs. rewrite Hst in Hs. cbn in Hs. rewrite Hi in Hs. by rewrite (proj1 (it_resume _ _ _ Hs)). }
      clear Hs Hst. induction Hd as [|s1 s2 s3 Hd IH Hne Hs]; [done|]. destruct (IH HR1 Hst1 Hi1) as [HR2 Hi2].
      split; [by eapply gexec_step|].
      destruct (during_one f _ p s1 s2 HR1 Hst1 Hd) as [_ [[? _]|[(l & y & Hl & Hy) _]]]; [done|].
      assert (HR3 : greach s3) by (by eapply gexec_step).
      destruct (during_one f _ p s1 s3 HR1 Hst1 (gd_step _ _ _ _ Hd Hne Hs)) as [_ [[Hb _]|[(l3 & y3 & Hl3 & Hy3) _]]].
      - (* control returned just now: iterators are not touched by this step *)
        pose proof (it_step _ _ Hs) as [[-> _]|[(h & -> & _)|(w' & i' & c' & st' & Hq & -> & _)]]; [done| |].
        + rewrite lookup_insert_ne; [done|]. assert (i < gni s2) by (apply (a_bound _ (ai_reach _ HR2)); eauto). lia.
        + exfalso. destruct (top_step _ _ _ _ Hq Hs) as (pre & evs & Hp & _ & _ & [-> |(l0 & z & -> & Hz)] & _).
          * unfold gstep in Hs. rewrite Hq in Hs.
            destruct (iters s2 !! i') as [[f'|]|]; try done. destruct (gheap s2 !! f') as [fr|]; [|done].
            assert (Hlen : length (gstack s3) = S (length st')) by (destruct (gnonnull fr); by injection Hs as <-).
            rewrite Hp in Hlen. cbn in Hlen. lia.
          * destruct l as [|x l]; cbn in Hl; rewrite Hq in Hl; injection Hl as <- Hst'.
            -- rewrite Hst', Hb in Hp. apply (f_equal length) in Hp. rewrite !app_length in Hp. cbn in Hp. lia.
            -- rewrite Hst', Hb in Hp. apply (f_equal length) in Hp. rewrite !app_length in Hp. cbn in Hp. lia.
      - destruct (a_adj _ (ai_reach _ HR3) l3 y3 w i c st Hl3) as (f3 & Hf3 & Hi3). congruence. }
    intros Hr. destruct (inv_reach _ HR2) as [HH2 _]. rewrite (h_some _ _ _ _ HH2 f fr Hf') in Hr. by destruct (gstat fr). }
  rewrite decide_False in L by done. rewrite decide_False in L2 by done. lia.
Qed.
Print Assumptions C24_one_step_per_increment.
Example ex_C24_one_step_per_increment : ∃ s s1 s2 w i c st, greach s ∧ gstack (V:=nat) (E:=nat) s = GRun w (GInc i c) :: st ∧ iters s !! i = Some (Some 1) ∧
  gstep s = GNext s1 ∧ gduring (GAfterInc w i c :: st) s1 s2 ∧ gstack s2 = GAfterInc w i c :: st ∧ gtrace s1 ≠ gtrace s2.
Proof.
  exists (grun (iterate two_throw) 8), (grun (iterate two_throw) 9), (grun (iterate two_throw) 11). do 4 eexists. split; [apply grun_reach|].
  split; [vm_compute; reflexivity|]. split; [vm_compute; reflexivity|]. split; [vm_compute; reflexivity|].
  split; [|split; [vm_compute; reflexivity|]].
  - eapply (gd_step _ _ (grun (iterate two_throw) 10)); [eapply (gd_step _ _ (grun (iterate two_throw) 9)); [constructor| |vm_compute; reflexivity]| |vm_compute; reflexivity];
      intros Hc%(f_equal length); vm_compute in Hc; discriminate.
  - intros Hc%(f_equal length); vm_compute in Hc; discriminate.
Qed.

(** The same for begin(): it runs the body to its first co_yield (or its end). *)
Theorem C24_one_step_per_begin {V E} (s s1 s2 : gstate V E) w g c st f : greach s ->
  gstack s = GRun w (GBegin g c) :: st -> gens s !! g = Some (Some f) -> gstep s = GNext s1 ->
  gduring (GAfterBegin w g c :: st) s1 s2 -> gstack s2 = GAfterBegin w g c :: st ->
  gsum (is_stop f) (gtrace s2) = S (gsum (is_stop f) (gtrace s)).
Proof.
  intros HR Hst Hi Hs Hd Hst2.
  assert (HR1 : greach s1) by (by eapply gexec_step).
  assert (∃ p v, gstack s1 = GRun (Gen f) p :: GAfterBegin w g c :: st ∧ gtrace s1 = GEResume f v :: gtrace s) as (p & v & Hst1 & Ht1).
  { unfold gstep in Hs. rewrite Hst in Hs. cbn in Hs. rewrite Hi in Hs. unfold gresume in Hs. cbn in Hs.
    destruct (gheap s !! f) as [fr|]; [|done]. destruct (gstat fr); try done; injection Hs as <-; cbn; eauto. }
  destruct (during_one f _ p s1 s2 HR1 Hst1 Hd) as [HR2 [[_ Hc]|[(l & y & Hl & _) _]]].
  - by rewrite Hc, Ht1.
  - exfalso. rewrite Hst2 in Hl. apply (f_equal length) in Hl. rewrite app_length in Hl. cbn in Hl. lia.
Qed.
Print Assumptions C24_one_step_per_begin.
Example ex_C24_one_step_per_begin : ∃ s s1 s2 w g c st, greach s ∧ gstack (V:=nat) (E:=nat) s = GRun w (GBegin g c) :: st ∧ gens s !! g = Some (Some 1) ∧
  gstep s = GNext s1 ∧ gduring (GAfterBegin w g c :: st) s1 s2 ∧ gstack s2 = GAfterBegin w g c :: st.
Proof.
  exists (grun (iterate two_throw) 1), (grun (iterate two_throw) 2), (grun (iterate two_throw) 3). do 4 eexists. split; [apply grun_reach|].
  split; [vm_compute; reflexivity|]. split; [vm_compute; reflexivity|]. split; [vm_compute; reflexivity|].
  split; [|vm_compute; reflexivity].
  eapply (gd_step _ _ (grun (iterate two_throw) 2)); [constructor| |vm_compute; reflexivity]. by intros [=].
Qed.

(** In every reachable state: number of resumptions of a body = number of its stops (co_yields and end), plus one while it runs. *)
Theorem C24_lockstep_count {V E} (s : gstate V E) f : greach s ->
  gsum (is_resume f) (gtrace s) = gsum (is_stop f) (gtrace s) + (if decide (gphase_of f (gtrace s) = QRun) then 1 else 0).
Proof. intros HR. apply lockstep. apply (h_legal _ _ _ _ (proj1 (inv_reach _ HR))). Qed.
Print Assumptions C24_lockstep_count.
Example ex_C24_lockstep_count : gsum (is_resume 1) (gtrace (grun (iterate two_vals) 100)) = 3.
Proof. vm_compute. reflexivity. Qed.

(** ** C25 *)
(** The body [f], run by ++i, throws x: exactly that ++i rethrows it and the iterator is then the end iterator. *)
Theorem C25_increment_rethrows {V E} (s : gstate V E) f x w i c st : greach s ->
  gstack s = GRun (Gen f) (GThrow x) :: GAfterInc w i c :: st ->
  ∃ s', gsteps s s' ∧ gstack s' = GRun w (c (Some x)) :: st ∧ iters s' !! i = Some None ∧
    gtrace s' = GEAct w (AInc (Some x)) :: GEFinish f (Some x) :: gtrace s.
Proof. exact (throw_inc f x w i c st s). Qed.
Print Assumptions C25_increment_rethrows.
Example ex_C25_increment_rethrows : ∃ s f x w i c st, greach s ∧ gstack (V:=nat) (E:=nat) s = GRun (Gen f) (GThrow x) :: GAfterInc w i c :: st.
Proof. exists (grun (iterate two_throw) 16). do 6 eexists. split; [apply grun_reach|]. vm_compute. reflexivity. Qed.

Theorem C25_begin_rethrows {V E} (s : gstate V E) f x w g c st : greach s ->
  gstack s = GRun (Gen f) (GThrow x) :: GAfterBegin w g c :: st -> gens s !! g = Some (Some f) ->
  ∃ s', gsteps s s' ∧ gstack s' = GRun w (c (inr x)) :: st ∧
    gtrace s' = GEAct w (ABegin (inr x)) :: GEFinish f (Some x) :: gtrace s.
Proof. exact (throw_begin f x w g c st s). Qed.
Print Assumptions C25_begin_rethrows.
Example ex_C25_begin_rethrows : ∃ s f x w g c st, greach s ∧ gstack (V:=nat) (E:=nat) s = GRun (Gen f) (GThrow x) :: GAfterBegin w g c :: st ∧ gens s !! g = Some (Some f).
Proof. exists (grun (iterate (GThrow 7)) 2). do 6 eexists. split; [apply grun_reach|]. split; vm_compute; reflexivity. Qed.

(** Conversely, only exceptions a generator body threw are ever rethrown by begin()/++. *)
Theorem C25_only_thrown_exceptions {V E} (s : gstate V E) w a x l1 l2 : greach s -> gtrace s = l1 ++ GEAct w a :: l2 ->
  a = AInc (Some x) ∨ a = ABegin (inr x) -> ∃ f, GEFinish f (Some x) ∈ l2.
Proof. exact (exc_origin s w a x l1 l2). Qed.
Print Assumptions C25_only_thrown_exceptions.
Example ex_C25_only_thrown_exceptions : ∃ l1 l2, gtrace (grun (iterate two_throw) 18) = l1 ++ GEAct (Fun 0) (AInc (Some 7)) :: l2.
Proof. eexists [], _. vm_compute. reflexivity. Qed.

(** ++ on the end iterator does nothing, so the exception is not rethrown a second time. *)
Theorem C25_increment_of_end {V E} (s : gstate V E) w i c st : gstack s = GRun w (GInc i c) :: st -> iters s !! i = Some None ->
  ∃ s', gstep s = GNext s' ∧ gstack s' = GRun w (c None) :: st ∧ gheap s' = gheap s ∧ iters s' = iters s.
Proof. intros Hst Hi. eexists. unfold gstep. rewrite Hst. cbn. rewrite Hi. split; [reflexivity|]. done. Qed.
Print Assumptions C25_increment_of_end.
Definition inc_end : gp := GEnd (λ i, GInc i (λ _, GRet tt)).
Example ex_C25_increment_of_end : ∃ s w i c st, greach s ∧ gstack (V:=nat) (E:=nat) s = GRun w (GInc i c) :: st ∧ iters s !! i = Some None.
Proof. exists (grun inc_end 1). do 4 eexists. split; [apply grun_reach|]. split; vm_compute; reflexivity. Qed.

(** ** C26 *)
(** At most one destruction, and nothing of the coroutine happens afterwards. *)
Theorem C26_destroyed_once {V E} (s : gstate V E) f l1 l2 : greach s -> gtrace s = l1 ++ GEDestroy f :: l2 ->
  GEDestroy f ∉ l1 ∧ GEDestroy f ∉ l2 ∧ (∀ v, GEResume f v ∉ l1) ∧ ∀ e, e ∈ l1 -> by_gen e ≠ Some f.
Proof.
  intros HR Ht. pose proof (h_legal _ _ _ _ (proj1 (inv_reach _ HR))) as Hl. rewrite Ht in Hl.
  assert (Hgo : ∀ a e b, l1 = a ++ e :: b -> glegal e (b ++ GEDestroy f :: l2) ∧ gphase_of f (b ++ GEDestroy f :: l2) = QGone).
  { intros a e b ->. rewrite <- app_assoc in Hl. cbn in Hl. apply glegal_app in Hl as [He Hl]. split; [done|].
    apply gone_stays; [done|]. apply elem_of_app. right. left. }
  split; [|split; [|split]].
  - intros (a & b & Hab)%elem_of_list_split. destruct (Hgo _ _ _ Hab) as [He Hp]. cbn in He. rewrite Hp in He. naive_solver.
  - intros Hd. apply glegal_app in Hl as [He Hl]. cbn in He. rewrite (gone_stays _ _ Hl Hd) in He. naive_solver.
  - intros v (a & b & Hab)%elem_of_list_split. destruct (Hgo _ _ _ Hab) as [He Hp]. destruct v; cbn in He; rewrite Hp in He; naive_solver.
  - intros e (a & b & Hab)%elem_of_list_split Hb. destruct (Hgo _ _ _ Hab) as [He Hp].
    pose proof (by_gen_runs _ _ _ He Hb). congruence.
Qed.
Print Assumptions C26_destroyed_once.
Example ex_C26_destroyed_once : ∃ l1 l2, gtrace (grun (GNew two_vals (λ g, GDrop g (GObs (GUser 5) (GRet tt)))) 100) = l1 ++ GEDestroy 1 :: l2 ∧ l1 ≠ [].
Proof. eexists [_], _. vm_compute. done. Qed.

(** Every generator coroutine is destroyed, or owned by exactly one Generator object, unless its owner was
    move-assigned to (C27). *)
Theorem C26_one_owner {V E} (s : gstate V E) f b : greach s -> GENew f b ∈ gtrace s -> GEDestroy f ∉ gtrace s ->
  (∀ w, GEAct w (AAssign (Some f)) ∉ gtrace s) ->
  ∃ g, gens s !! g = Some (Some f) ∧ ∀ g', gens s !! g' = Some (Some f) -> g' = g.
Proof.
  intros HR Hn Hd Ha. destruct (inv_reach _ HR) as [HH HO].
  destruct (gheap s !! f) as [fr|] eqn:Hf.
  - destruct (o_own _ _ _ _ HO f) as [[g Hg]|[w Hw]]; [eauto| |by destruct (Ha w)].
    exists g. split; [done|]. intros g' Hg'. by apply (o_uniq _ _ _ _ HO _ _ f).
  - exfalso. destruct (h_none _ _ _ _ HH f Hf) as [Hp|Hp]; [by apply (created_not_none _ _ _ Hn)|]. by apply Hd, gone_destroyed.
Qed.
Print Assumptions C26_one_owner.
Example ex_C26_one_owner : GENew 1 two_vals ∈ gtrace (grun (GNew two_vals (λ g, GMove g (λ h, GRet tt))) 100) ∧
  gens (grun (GNew two_vals (λ g, GMove g (λ h, GRet tt))) 100) !! 1 = Some (Some 1).
Proof. split; [in_|vm_compute; reflexivity]. Qed.

(** It is destroyed only together with its owning object ... *)
Theorem C26_destroyed_with_owner {V E} (s s' : gstate V E) f : greach s -> gstep s = GNext s' -> GEDestroy f ∈ gtrace s' -> GEDestroy f ∉ gtrace s ->
  ∃ g, gens s !! g = Some (Some f) ∧ gens s' !! g = None.
Proof.
  intros HR Hs Hin Hni. destruct (step_events s s' (inv_reach _ HR) Hs) as (evs & Hev & Hsrc). rewrite Hev in Hin.
  apply elem_of_app in Hin as [Hin|?]; [|done]. exact (Hsrc _ Hin).
Qed.
Print Assumptions C26_destroyed_with_owner.
Example ex_C26_destroyed_with_owner : ∃ s s', greach s ∧ gstep (V:=nat) (E:=nat) s = GNext s' ∧ GEDestroy 1 ∈ gtrace s'.
Proof. exists (grun (GNew two_vals (λ g, GDrop g (GRet tt))) 1). eexists. split; [apply grun_reach|]. split; [vm_compute; reflexivity|in_]. Qed.

(** ... and destroying the owner does destroy it (whatever was consumed before), with the Generator objects that are
    local variables of the suspended body. *)
Theorem C26_owner_destroys {V E} (s : gstate V E) w g p st f : greach s -> gstack s = GRun w (GDrop g p) :: st -> gens s !! g = Some (Some f) ->
  gphase_of f (gtrace s) ≠ QRun ->
  ∃ s' ls, gstep s = GNext s' ∧ gtrace s' = GEDestroy f :: GEAct w (ADrop g) :: gtrace s ∧ gstack s' = GDrops ls :: GRun w p :: st ∧
    gens s' = delete g (gens s) ∧ gheap s' = delete f (gheap s) ∧
    (∀ v ls0 c fr, gheap s !! f = Some fr -> gstat fr = GSusp v ls0 c -> ls = ls0).
Proof.
  intros HR Hst Hg Hp. destruct (inv_reach _ HR) as [HH HO]. destruct (o_gh _ _ _ _ HO g f Hg) as [fr Hf].
  rewrite (h_some _ _ _ _ HH f fr Hf) in Hp. unfold gstep. rewrite Hst. cbn. unfold gdrop, gdestroy. cbn. rewrite Hg. cbn. rewrite Hf.
  destruct (gstat fr) eqn:Hs; cbn in Hp; try done; eexists _, _; (split; [reflexivity|]); (do 4 (split; [done|])); intros ? ? ? fr' [= <-]; by rewrite Hs; intros [= _ -> _].
Qed.
Print Assumptions C26_owner_destroys.
Example ex_C26_owner_destroys : ∃ s w g p st, greach s ∧ gstack (V:=nat) (E:=nat) s = GRun w (GDrop g p) :: st ∧ gens s !! g = Some (Some 1) ∧
  gphase_of 1 (gtrace s) ≠ QRun.
Proof. exists (grun (GNew two_vals (λ g, GDrop g (GRet tt))) 1). do 4 eexists. split; [apply grun_reach|]. split; [vm_compute; reflexivity|]. split; [vm_compute; reflexivity|]. by vm_compute. Qed.

(** The local Generator objects are destroyed one after the other, each with its coroutine. *)
Theorem C26_locals_destroyed {V E} (s : gstate V E) g l st h : greach s -> gstack s = GDrops (g :: l) :: st -> gens s !! g = Some h ->
  (∀ f, h = Some f -> gphase_of f (gtrace s) ≠ QRun) ->
  ∃ s', gstep s = GNext s' ∧ gens s' = delete g (gens s) ∧ (∀ f, h = Some f -> GEDestroy f ∈ gtrace s') ∧
    (gstack s' = GDrops l :: st ∨ ∃ ls, gstack s' = GDrops ls :: GDrops l :: st).
Proof.
  intros HR Hst Hg Hp. destruct (inv_reach _ HR) as [HH HO]. unfold gstep. rewrite Hst. unfold gdrop, gdestroy. cbn. rewrite Hg.
  destruct h as [f|]; [|eexists; split; [reflexivity|]; cbn; split; [done|]; split; [done|]; by left].
  specialize (Hp f eq_refl). destruct (o_gh _ _ _ _ HO g f Hg) as [fr Hf]. rewrite (h_some _ _ _ _ HH f fr Hf) in Hp. cbn. rewrite Hf.
  destruct (gstat fr); cbn in Hp; try done; eexists; (split; [reflexivity|]); cbn; (split; [done|]); (split; [intros ? [= <-]; left|]); eauto.
Qed.
Print Assumptions C26_locals_destroyed.
(** outer: auto inner = two_vals(); co_yield 1; -- abandoned after the first value *)
Definition nested_abandon : gp :=
  GNew (GNew two_vals (λ g, GYield 1 [g] (λ _, GDrop g (GRet tt)))) (λ o, GBegin o (λ _, GDrop o (GRet tt))).
Example ex_C26_locals_destroyed : ∃ s g l st, greach s ∧ gstack (V:=nat) (E:=nat) s = GDrops (g :: l) :: st ∧ gens s !! g = Some (Some 2) ∧
  gphase_of 2 (gtrace s) ≠ QRun.
Proof. exists (grun nested_abandon 6). do 3 eexists. split; [apply grun_reach|]. split; [vm_compute; reflexivity|]. split; [vm_compute; reflexivity|]. by vm_compute. Qed.

(** ** C27 (violated) *)
(** All Generator objects are gone, but a coroutine was not destroyed. *)
Theorem C27_assign_releases_refuted : ¬ ∀ (s : gstate nat nat) f b, greach s -> gstack s = [] -> gens s = ∅ ->
  GENew f b ∈ gtrace s -> GEDestroy f ∈ gtrace s.
Proof.
  intros H. specialize (H (grun assign_leak 100) 1 two_vals (grun_reach _ _)).
  assert (Hd : GEDestroy 1 ∈ gtrace (grun assign_leak 100)); [apply H; [vm_compute; reflexivity|dec|in_]|].
  revert Hd. not_in (gis_destroy 1).
Qed.
Print Assumptions C27_assign_releases_refuted.
(** Self-move loses the coroutine as well. *)
Theorem C27_self_assign_refuted : ¬ ∀ (s s' : gstate nat nat) w g p st, greach s -> gstack s = GRun w (GAssign g g p) :: st -> gstep s = GNext s' ->
  gens s' = gens s.
Proof.
  intros H. specialize (H (grun assign_self 1) (grun assign_self 2) (Fun 0) 0 (GDrop 0 (GRet tt)) [] (grun_reach assign_self 1)).
  assert (Hq : gens (grun assign_self 2) !! 0 = gens (grun assign_self 1) !! 0) by (f_equal; apply H; vm_compute; reflexivity).
  vm_compute in Hq. done.
Qed.
Print Assumptions C27_self_assign_refuted.
(** In every program: the coroutine owned by the target of a move assignment is never destroyed afterwards. *)
Theorem C27_assigned_over_leaks {V E} (s : gstate V E) w f : greach s -> GEAct w (AAssign (Some f)) ∈ gtrace s ->
  GEDestroy f ∉ gtrace s ∧ ∀ g, gens s !! g ≠ Some (Some f).
Proof. intros HR Hin. destruct (assigned_lost s w f HR Hin) as (_ & ? & ?). done. Qed.
Print Assumptions C27_assigned_over_leaks.
Example ex_C27_assigned_over_leaks : GEAct (Fun 0) (AAssign (Some 1)) ∈ gtrace (grun assign_leak 100).
Proof. in_. Qed.

(** ** C28 (violated) *)
Theorem C28_begin_empty_refuted : ¬ ∀ (s : gstate nat nat) w g c st, greach s -> gstack s = GRun w (GBegin g c) :: st ->
  gens s !! g = Some None -> ∃ s', gstep s = GNext s'.
Proof.
  intros H. destruct (H (grun begin_null 1) (Fun 0) 0 (λ _, GRet tt) [] (grun_reach _ _)) as [s' Hs]; [reflexivity|reflexivity|].
  vm_compute in Hs. done.
Qed.
Print Assumptions C28_begin_empty_refuted.
Theorem C28_begin_finished_refuted : ¬ ∀ (s : gstate nat nat) w g c st f, greach s -> gstack s = GRun w (GBegin g c) :: st ->
  gens s !! g = Some (Some f) -> gphase_of f (gtrace s) = QFin -> ∃ s', gstep s = GNext s'.
Proof.
  intros H. destruct (H (grun begin_done 100) (Fun 0) 0 (λ _, GRet tt) [] 1 (grun_reach _ _)) as [s' Hs]; [vm_compute; reflexivity|vm_compute; reflexivity|vm_compute; reflexivity|].
  vm_compute in Hs. done.
Qed.
Print Assumptions C28_begin_finished_refuted.
Theorem C28_stale_iterator_refuted : ¬ ∀ (s : gstate nat nat) w i c st f, greach s -> gstack s = GRun w (GInc i c) :: st ->
  iters s !! i = Some (Some f) -> is_Some (gheap s !! f) -> ∃ s', gstep s = GNext s'.
Proof.
  intros H. destruct (H (grun stale_copy 100) (Fun 0) 1 (λ _, GRet tt) [] 1 (grun_reach _ _)) as [s' Hs];
    [vm_compute; reflexivity|vm_compute; reflexivity|vm_compute; eauto|].
  vm_compute in Hs. done.
Qed.
Print Assumptions C28_stale_iterator_refuted.
(** In every state: begin() is undefined exactly on an empty, running or finished generator. *)
Theorem C28_begin_defined_iff {V E} (s : gstate V E) w g c st h : greach s -> gstack s = GRun w (GBegin g c) :: st -> gens s !! g = Some h ->
  (∃ s', gstep s = GNext s') <-> ∃ f, h = Some f ∧ (gphase_of f (gtrace s) = QInit ∨ gphase_of f (gtrace s) = QSusp).
Proof.
  intros HR Hst Hg. destruct (inv_reach _ HR) as [HH HO]. unfold gstep. rewrite Hst. cbn. rewrite Hg. destruct h as [f|].
  - destruct (o_gh _ _ _ _ HO g f Hg) as [fr Hf]. pose proof (h_some _ _ _ _ HH f fr Hf) as Hp.
    unfold gresume. cbn. rewrite Hf. destruct (gstat fr) eqn:Hs; cbn in Hp; split; try (by eauto); try (by intros [? ?]);
      intros (f' & [= <-] & Hx); rewrite Hp in Hx; naive_solver.
  - split; [by intros [? ?]|by intros (? & ? & _)].
Qed.
Print Assumptions C28_begin_defined_iff.
Example ex_C28_begin_defined_iff : ∃ s w g c st h, greach s ∧ gstack (V:=nat) (E:=nat) s = GRun w (GBegin g c) :: st ∧ gens s !! g = Some h.
Proof. exists (grun begin_done 100). do 5 eexists. split; [apply grun_reach|]. split; vm_compute; reflexivity. Qed.
