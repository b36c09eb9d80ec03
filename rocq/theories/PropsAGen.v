(** * Property theorems C27 (AsyncGenerator half), C29-C32, C61, C62 (AsyncGenerator).

    Vocabulary: AGenModel.v (the machine), AGenSpec.v (trace vocabulary). [areach s]: [s] is reachable by calling any plain
    functions and letting any pending external completions fire, in any order; traces are newest first. [aexec s0 s]: any
    such execution from [s0] to [s]. *)
From stdpp Require Import gmap list.
From Verif Require Import TaskRun.
From Verif Require Import AGenModel AGenSpec AGenInv AGenStep AGenFacts AGenWait AGenLoop AGenOwn AGenWalk AGenMore AGenRun.

(** ** C29 *)

(** Coroutine [w] starts QCORO_FOREACH over generator [g] whose coroutine [f] was not started. In every execution and for
    every interleaving in which nobody else iterates [f] and neither is destroyed: either the loop is in progress, the loop
    body saw exactly the values co_yielded so far (possibly all but the newest) and the next step of [w] is well defined;
    or the loop was left at some state [s1], the loop body saw exactly the values co_yielded by [f], and [f] ended, with
    the outcome the loop was left with. *)
Theorem C29_foreach_gets_all {V E} (s0 s : astate V E) w f g ls body k st : areach s0 ->
  astack s0 = ARun (Co w) (aforeach g ls body k) :: st -> agens s0 !! g = Some (Some f) -> aphase_of f (atrace s0) = QInit ->
  aexec s0 s -> (∀ w' j, w' ≠ w -> AEAdv w' f j ∉ atrace s) -> AEDestroy f ∉ atrace s -> AEDestroy w ∉ atrace s ->
  ((agot (Co w) (atrace s) = agot (Co w) (atrace s0) ++ ayielded f (atrace s) ∨
    ∃ Y v, ayielded f (atrace s) = Y ++ [v] ∧ agot (Co w) (atrace s) = agot (Co w) (atrace s0) ++ Y) ∧
   ∀ p st', astack s = ARun (Co w) p :: st' -> ∃ s', astep s = ANext s') ∨
  ∃ s1 r st', aexec s0 s1 ∧ aexec s1 s ∧ astack s1 = ARun (Co w) (k r) :: st' ∧
    agot (Co w) (atrace s1) = agot (Co w) (atrace s0) ++ ayielded f (atrace s1) ∧ AEFinish f r ∈ atrace s1.
Proof.
  intros HR Hst Hg Hp Hex H1 H2 H3. pose proof (init_adv f _ (reach_legal _ HR) Hp) as [_ Hy].
  destruct (foreach_all w f g ls body k (agot (Co w) (atrace s0)) s0 s st) as [Hat|(s1 & E1 & E2 & r & st' & A & B & C)]; [done|done|done|done| |done|done|..].
  - unfold sync. by rewrite Hy, app_nil_r.
  - left. split; [|intros p st' Hs; eapply loop_defined; [by eapply reach_exec|exact Hat|exact Hs]].
    destruct (loop_at_got _ _ _ _ _ _ _ _ Hat) as [?|(v & Y & ? & ?)]; [by left|right; eauto].
  - right. exists s1, r, st'. done.
Qed.
Print Assumptions C29_foreach_gets_all.

(** With a producer that co_yields [vs] and ends with [r], whatever its external co_awaits deliver and whenever they
    complete: the loop body sees the values of [vs] in order, and all of them when the loop is left, with outcome [r]. *)
Theorem C29_foreach_plain_producer {V E} (s0 s : astate V E) w f g b vs r ls body k st : areach s0 ->
  astack s0 = ARun (Co w) (aforeach g ls body k) :: st -> agens s0 !! g = Some (Some f) ->
  AENew f b ∈ atrace s0 -> aphase_of f (atrace s0) = QInit -> ayields b vs r ->
  aexec s0 s -> (∀ w' j, w' ≠ w -> AEAdv w' f j ∉ atrace s) -> AEDestroy f ∉ atrace s -> AEDestroy w ∉ atrace s ->
  (∃ Y, agot (Co w) (atrace s) = agot (Co w) (atrace s0) ++ Y ∧ Y `prefix_of` vs) ∨
  ∃ s1 st', aexec s0 s1 ∧ aexec s1 s ∧ astack s1 = ARun (Co w) (k r) :: st' ∧
    agot (Co w) (atrace s1) = agot (Co w) (atrace s0) ++ vs.
Proof.
  intros HR Hst Hg Hn Hp Hy Hex H1 H2 H3.
  assert (Hb : ∀ s', aexec s0 s' -> AENew f b ∈ atrace s').
  { intros s' Hs'. destruct (exec_suffix _ _ Hs') as [evs ->]. apply elem_of_app. by right. }
  destruct (C29_foreach_gets_all s0 s w f g ls body k st HR Hst Hg Hp Hex H1 H2 H3) as [[Hgot _]|(s1 & r' & st' & E1 & E2 & A & B & C)].
  - left. destruct (plain_yields s f b vs r) as [Hpre _]; [by eapply reach_exec|by apply Hb|done|].
    destruct Hgot as [Hgot|(Y & v & HY & Hgot)]; [eauto|]. exists Y. split; [done|]. rewrite HY in Hpre. etrans; [|exact Hpre]. by apply prefix_app_r.
  - right. destruct (plain_yields s1 f b vs r) as [_ Hfin]; [by eapply reach_exec|by apply Hb|done|]. destruct (Hfin r' C) as [Hvs ->].
    exists s1, st'. do 3 (split; [done|]). by rewrite B, Hvs.
Qed.
Print Assumptions C29_foreach_plain_producer.
(** Non-vacuity: a loop with suspensions on both sides, at its start and after it was left with an exception. *)
Definition ex29 := arun_to [] (main (consumer aprod2_throw)) 2.
Example ex_C29_start : ∃ k st, areach ex29 ∧ astack ex29 = ARun (Co 1) (aforeach 0 [0] (λ _, [BLeaf true]) k) :: st ∧
  agens ex29 !! 0 = Some (Some 2) ∧ AENew 2 aprod2_throw ∈ atrace ex29 ∧ aphase_of 2 (atrace ex29) = QInit ∧ ayields aprod2_throw [10; 11] (Some 7).
Proof.
  do 2 eexists. split; [apply arun_to_reach|]. split; [cbn; reflexivity|]. split; [reflexivity|]. split; [in_|]. split; [reflexivity|]. apply ayields_prod2_throw.
Qed.
Definition ex29_end := asched (EvFire 0 0 :: EvFire 1 5 :: EvFire 2 0 :: []) 100 (adrive 200 ex29).
Example ex_C29_end : aexec ex29 ex29_end ∧ agot (Co 1) (atrace ex29_end) = [10; 11] ∧ AEFinish 2 (Some 7) ∈ atrace ex29_end ∧
  AEEnd 1 (Some 7) ∈ atrace ex29_end.
Proof. split; [apply asched_exec, adrive_exec; constructor|]. split; [vm_compute; reflexivity|]. split; in_. Qed.
Definition ex29_mid := asched (EvFire 0 0 :: []) 100 (adrive 200 ex29).
Example ex_C29_mid : aexec ex29 ex29_mid ∧ AEDestroy 2 ∉ atrace ex29_mid ∧ AEDestroy 1 ∉ atrace ex29_mid ∧
  (∀ w' j, w' ≠ 1 -> AEAdv w' 2 j ∉ atrace ex29_mid) ∧ aphase_of 1 (atrace ex29_mid) = QWait 2 (Some 0).
Proof.
  split; [apply asched_exec, adrive_exec; constructor|]. split; [not_in (ais_destroy 2)|]. split; [not_in (ais_destroy 1)|]. split; [|vm_compute; reflexivity].
  intros w' j Hw. apply (notin (ais_adv_by 1 2)); [cbn; rewrite bool_decide_eq_false_2 by done; by rewrite bool_decide_eq_true_2|vm_compute; reflexivity].
Qed.

(** In any program: the co_awaits of begin()/++ on [f] complete exactly once per co_yield or end of [f], in the same order,
    each with a value, the end or the exception, as [f] did. *)
Theorem C29_one_completion_per_stop {V E} (s : astate V E) f : areach s -> astops f (atrace s) = abacks f (atrace s).
Proof.
  intros HR. destruct (inv_reach _ HR) as (HH & _). rewrite (stops_backs f (atrace s) (h_legal _ _ _ _ HH)).
  pose proof (h_settled _ _ _ _ HH) as Hs. destruct (atrace s) as [|x l]; [by rewrite app_nil_r|].
  assert (out_of f x = None) as -> by (destruct x; try done; by destruct Hs). by rewrite app_nil_r.
Qed.
Print Assumptions C29_one_completion_per_stop.
Example ex_C29_one_completion_per_stop : abacks 2 (atrace ex29_end) = [OValue; OValue; OExc 7].
Proof. vm_compute. reflexivity. Qed.

(** The completing coroutine is the one that waits, and it continues right after the producer's stop. *)
Theorem C29_completion_follows_stop {V E} (s : astate V E) c f i o l1 l2 : areach s -> atrace s = l1 ++ AEBack c f i o :: l2 ->
  last_adv f l2 = Some c ∧ (∃ j, aphase_of c l2 = QWait f j ∧ (j = None ∨ j = Some i)) ∧
  ∃ x l', l2 = x :: l' ∧ match o with OValue => ∃ v, x = AEYield f v | OEnd => x = AEFinish f None | OExc e => x = AEFinish f (Some e) end.
Proof.
  intros HR Ht. pose proof (reach_legal _ HR) as Hl. rewrite Ht in Hl. apply alegal_app in Hl as [[_ He] _]. cbn in He.
  destruct He as (H1 & H2 & x & l' & -> & Ho). do 2 (split; [done|]). exists x, l'. split; [done|].
  destruct x as [| | | |g v|g [y|]| | | | | |]; cbn in Ho; try done; destruct (decide (f = g)) as [<-|]; try done; injection Ho as <-; eauto.
Qed.
Print Assumptions C29_completion_follows_stop.
Example ex_C29_completion_follows_stop : ∃ l1 l2, atrace ex29_end = l1 ++ AEBack 1 2 0 (OExc 7) :: l2.
Proof. eexists [_; _; _], _. vm_compute. reflexivity. Qed.

(** No wake-up is lost: when no code runs, a coroutine that waits for [f] waits for a producer that is itself suspended in a
    co_await: on something external that is still pending, or on another generator; or [f] was destroyed. *)
Theorem C29_no_lost_wakeup {V E} (s : astate V E) c f j : areach s -> astack s = [] -> aphase_of c (atrace s) = QWait f j ->
  (aphase_of f (atrace s) = QLeaf ∧ ∃ pid, apend s !! pid = Some f) ∨ (∃ f2 j2, aphase_of f (atrace s) = QWait f2 j2) ∨
  aphase_of f (atrace s) = QGone.
Proof.
  intros HR Hst Hc. destruct (inv_reach _ HR) as (HH & _ & HP & _). pose proof (h_legal _ _ _ _ HH) as Hl.
  destruct (waiting c f j _ Hl Hc) as [_ [Ha|[Hg|(x & l & o & Ht & Ho)]]]; [|eauto|].
  - destruct (aheap s !! f) as [fr|] eqn:Hf.
    + pose proof (h_some _ _ _ _ _ _ HH Hf) as (Hp & _ & _ & _ & Hr). rewrite Hp in *.
      destruct (astat fr) as [| | |pid sf ls k| | |] eqn:Hs; cbn in *; try done; eauto.
      * exfalso. rewrite Hst in Hr. assert (Co f ∈ acts ([] : list (aitem V E))) as ?%elem_of_nil by (by apply Hr). done.
      * left. split; [done|]. exists pid. by destruct (p_leaf _ _ _ _ HP _ _ _ _ _ _ Hf Hs).
    + destruct (h_none _ _ _ _ _ HH Hf) as [[(Hx & _)|Hx] _]; [|eauto]. by rewrite Hx in Ha.
  - exfalso. pose proof (h_settled _ _ _ _ HH) as Hs. rewrite Ht in Hs. apply Hs. by destruct x.
Qed.
Print Assumptions C29_no_lost_wakeup.
Example ex_C29_no_lost_wakeup : astack ex29_mid = [] ∧ aphase_of 1 (atrace ex29_mid) = QWait 2 (Some 0) ∧ aphase_of 2 (atrace ex29_mid) = QLeaf.
Proof. vm_compute. done. Qed.

(** In any program: the events of a coroutine are a run of its body: nothing is skipped, repeated or reordered. *)
Theorem C29_body_runs_as_written {V E} (s : astate V E) f b : areach s -> AENew f b ∈ atrace s -> ∃ x, awalk (CStart b) (aproj f (atrace s)) x.
Proof. intros HR Hn. destruct (wi_reach s HR f (CStart b)) as (x & Hw & _); [left; eauto|eauto]. Qed.
Print Assumptions C29_body_runs_as_written.
Theorem C29_consumer_runs_as_written {V E} (s : astate V E) f b : areach s -> AESpawn f b ∈ atrace s -> ∃ x, awalk (CRun b) (aproj f (atrace s)) x.
Proof. intros HR Hn. destruct (wi_reach s HR f (CRun b)) as (x & Hw & _); [right; eauto|eauto]. Qed.
Print Assumptions C29_consumer_runs_as_written.
Example ex_C29_body_runs_as_written : AENew 2 aprod2_throw ∈ atrace ex29_end ∧
  aproj 2 (atrace ex29_end) = [LEnd (Some 7); LResume; LYield 11; LFire 5; LLeaf true; LResume; LYield 10; LResume].
Proof. split; [in_|vm_compute; reflexivity]. Qed.

(** ** C30 *)
(** Whenever a producer body does anything, some coroutine has awaited begin()/++ on it and still waits (or was destroyed
    while it waited). In particular nothing of the body runs before begin(). *)
Theorem C30_runs_only_when_awaited {V E} (s : astate V E) f b e l1 l2 : areach s -> atrace s = l1 ++ e :: l2 -> by_co e = Some f ->
  AENew f b ∈ l2 -> ∃ c, last_adv f l2 = Some c ∧ ((∃ j, aphase_of c l2 = QWait f j) ∨ aphase_of c l2 = QGone).
Proof.
  intros HR Ht Hb Hn. pose proof (reach_legal _ HR) as Hl. rewrite Ht in Hl. apply alegal_app in Hl as [He Hl].
  apply worked_for; [done|apply made_new; eauto|]. by rewrite (by_runs _ _ _ He Hb).
Qed.
Print Assumptions C30_runs_only_when_awaited.
Example ex_C30_runs_only_when_awaited : ∃ l1 l2, atrace ex29_end = l1 ++ AEYield 2 11 :: l2 ∧ by_co (AEYield 2 11 : aevent nat nat) = Some 2 ∧ AENew 2 aprod2_throw ∈ l2.
Proof. eexists (take 12 (atrace ex29_end)), (drop 13 (atrace ex29_end)). split; [vm_compute; reflexivity|]. split; [done|]. in_. Qed.

(** Lockstep: as long as the coroutine exists, the number of co_yields and ends equals the number of awaited begin()/++,
    minus one while one of them is still unanswered. *)
Theorem C30_lockstep {V E} (s : astate V E) f b : areach s -> AENew f b ∈ atrace s -> AEDestroy f ∉ atrace s ->
  asum (is_adv f) (atrace s) = asum (is_stop f) (atrace s) + if decide (active (aphase_of f (atrace s))) then 1 else 0.
Proof.
  intros HR Hn Hd. pose proof (reach_legal _ HR) as Hl. assert (Hm : made f (atrace s) = true) by (apply made_new; eauto).
  pose proof (balance f _ Hl) as Hb. rewrite Hm in Hb. pose proof (made_not_none f b _ Hl Hn) as Hnn.
  assert (Hng : aphase_of f (atrace s) ≠ QGone) by (intros Hg; by apply Hd, gone_made_destroyed).
  destruct (aphase_of f (atrace s)); try done; cbn in *; destruct (decide _); try tauto; lia.
Qed.
Print Assumptions C30_lockstep.
Example ex_C30_lockstep : AENew 2 aprod2_throw ∈ atrace ex29_mid ∧ asum (is_adv 2) (atrace ex29_mid) = 2 ∧ asum (is_stop 2) (atrace ex29_mid) = 1.
Proof. split; [in_|]. vm_compute. done. Qed.

(** *it is the last value co_yielded, and the body is suspended at that co_yield. *)
Theorem C30_deref_is_last_yield {V E} (s : astate V E) w f v l1 l2 : areach s -> atrace s = l1 ++ AEAct w (XDeref f v) :: l2 ->
  last (ayielded f l2) = Some v ∧ aphase_of f l2 = QYield v.
Proof.
  intros HR Ht. pose proof (reach_legal _ HR) as Hl. rewrite Ht in Hl. apply alegal_app in Hl as [[_ [_ Hp]] _]. cbn in Hp.
  split; [by apply phase_yield_last|done].
Qed.
Print Assumptions C30_deref_is_last_yield.
Example ex_C30_deref_is_last_yield : ∃ l1 l2, atrace ex29_end = l1 ++ AEAct (Co 1) (XDeref 2 11) :: l2 ∧ ayielded 2 l2 = [10; 11].
Proof. eexists (take 9 (atrace ex29_end)), (drop 10 (atrace ex29_end)). vm_compute. done. Qed.

(** The value stays valid, whatever happens, until the next awaited begin()/++ on the generator or its destruction. *)
Theorem C30_value_stays_valid {V E} (s s' : astate V E) f v evs w i c st : areach s -> aphase_of f (atrace s) = QYield v -> aexec s s' ->
  atrace s' = evs ++ atrace s -> (∀ c' j, AEAdv c' f j ∉ evs) -> AEDestroy f ∉ evs ->
  aphase_of f (atrace s') = QYield v ∧
  (astack s' = ARun w (ADeref i c) :: st -> aiters s' !! i = Some (Some f) -> ∃ s2, astep s' = ANext s2 ∧ astack s2 = ARun w (c v) :: st).
Proof.
  intros HR Hp Hex Ht Ha Hd. pose proof (reach_exec _ _ HR Hex) as HR'. pose proof (reach_legal _ HR') as Hl. rewrite Ht in *.
  assert (Hp' : aphase_of f (evs ++ atrace s) = QYield v).
  { clear Ht. induction evs as [|e evs IH]; [done|]. cbn [app] in Hl. destruct Hl as [He Hl]. cbn [app].
    apply (yield_keeps f v e); [done| |..].
    - apply IH; [intros c' j Hin; apply (Ha c' j); by right|intros Hin; apply Hd; by right|done].
    - intros c' j ->. apply (Ha c' j). left.
    - intros ->. apply Hd. left. }
  split; [done|]. intros Hst Hi. destruct (yield_frame f v s' (inv_reach _ HR')) as (fr & ls & p & Hf & Hs & Hn); [by rewrite Ht|].
  unfold astep. rewrite Hst. cbn. rewrite Hi, Hf, Hn, Hs. eexists. split; [reflexivity|done].
Qed.
Print Assumptions C30_value_stays_valid.
Example ex_C30_value_stays_valid : ∃ s s' evs, areach s ∧ aphase_of (V:=nat) (E:=nat) 2 (atrace s) = QYield 10 ∧ aexec s s' ∧ atrace s' = evs ++ atrace s ∧
  length evs = 5 ∧ (∀ c' j, AEAdv c' 2 j ∉ evs) ∧ AEDestroy 2 ∉ evs.
Proof.
  exists (arun_to [] (main (consumer aprod2_throw)) 4), (adrive 6 (arun_to [] (main (consumer aprod2_throw)) 4)),
    (take 5 (atrace (adrive 6 (arun_to [] (main (consumer aprod2_throw)) 4)))).
  split; [apply arun_to_reach|]. split; [vm_compute; reflexivity|]. split; [apply adrive_exec; constructor|]. split; [vm_compute; reflexivity|].
  split; [vm_compute; reflexivity|]. split; [intros c' j; apply (notin (ais_adv 2)); [cbn; by rewrite bool_decide_eq_true_2|vm_compute; reflexivity]|not_in (ais_destroy 2)].
Qed.

(** ** C31 *)
(** A producer body throws: the co_await of ++ (or begin()) that waits for it throws this exception, at once; the iterator
    equals end() (for begin() there is none). *)
Theorem C31_increment_rethrows {V E} (s : astate V E) f x st c fc i ls k : areach s -> astack s = ARun (Co f) (AThrow x) :: st ->
  (∃ b, AENew f b ∈ atrace s) -> last_adv f (atrace s) = Some c -> aheap s !! c = Some fc -> astat fc = SInc i f ls k ->
  ∃ s', astep s = ANext s' ∧ astack s' = ARun (Co c) (k (Some x)) :: st ∧ aiters s' !! i = Some None ∧
    atrace s' = AEBack c f i (OExc x) :: AEFinish f (Some x) :: atrace s.
Proof.
  intros HR Hst Hm Hla Hc Hs.
  assert (Hne : c ≠ f). { intros ->. pose proof (inv_reach _ HR) as HI. eapply wait_not_top; [exact HI|exact Hc| |exact Hst]. by rewrite Hs. }
  pose proof (stop_step s f (AThrow x) st c fc (OExc x) (AEFinish f (Some x)) HR Hst (proj2 (made_new _ _) Hm) Hla Hc Hne) as H. rewrite Hs in H.
  destruct H as (s' & ? & ? & ? & Hi); [right; left; eauto|done|]. exists s'. do 2 (split; [done|]). split; [by rewrite Hi, lookup_insert|done].
Qed.
Print Assumptions C31_increment_rethrows.
Example ex_C31_increment_rethrows : ∃ s st fc ls k, areach s ∧ astack (V:=nat) (E:=nat) s = ARun (Co 2) (AThrow 7) :: st ∧ AENew 2 aprod2_throw ∈ atrace s ∧
  last_adv 2 (atrace s) = Some 1 ∧ aheap s !! 1 = Some fc ∧ astat fc = SInc 0 2 ls k.
Proof.
  exists (arun_to [main (consumer aprod2_throw); EvFire 0 0; EvFire 1 5] (EvFire 2 0) 1). do 4 eexists. split; [apply arun_to_reach|].
  split; [vm_compute; reflexivity|]. split; [in_|]. split; [vm_compute; reflexivity|]. split; [vm_compute; reflexivity|vm_compute; reflexivity].
Qed.

Theorem C31_begin_rethrows {V E} (s : astate V E) f x st c fc ls k : areach s -> astack s = ARun (Co f) (AThrow x) :: st ->
  (∃ b, AENew f b ∈ atrace s) -> last_adv f (atrace s) = Some c -> aheap s !! c = Some fc -> astat fc = SBegin f ls k ->
  ∃ s', astep s = ANext s' ∧ astack s' = ARun (Co c) (k (inr x)) :: st ∧ aiters s' = aiters s ∧
    atrace s' = AEBack c f (ani s) (OExc x) :: AEFinish f (Some x) :: atrace s.
Proof.
  intros HR Hst Hm Hla Hc Hs.
  assert (Hne : c ≠ f). { intros ->. pose proof (inv_reach _ HR) as HI. eapply wait_not_top; [exact HI|exact Hc| |exact Hst]. by rewrite Hs. }
  pose proof (stop_step s f (AThrow x) st c fc (OExc x) (AEFinish f (Some x)) HR Hst (proj2 (made_new _ _) Hm) Hla Hc Hne) as H. rewrite Hs in H.
  destruct H as (s' & ? & ? & ? & Hi); [right; left; eauto|done|]. exists s'. done.
Qed.
Print Assumptions C31_begin_rethrows.
Example ex_C31_begin_rethrows : ∃ s st fc ls k, areach s ∧ astack (V:=nat) (E:=nat) s = ARun (Co 2) (AThrow 7) :: st ∧ AENew 2 (AThrow 7) ∈ atrace s ∧
  last_adv 2 (atrace s) = Some 1 ∧ aheap s !! 1 = Some fc ∧ astat fc = SBegin 2 ls k.
Proof.
  exists (arun_to [] (main (consumer (AThrow 7))) 3). do 4 eexists. split; [apply arun_to_reach|].
  split; [vm_compute; reflexivity|]. split; [in_|]. split; [vm_compute; reflexivity|]. split; [vm_compute; reflexivity|vm_compute; reflexivity].
Qed.

(** Exactly once: at most one co_await on a generator ever completes with an exception, it is the last one to complete, and
    the exception is the one the body threw. *)
Theorem C31_exception_once {V E} (s : astate V E) c f i x l1 l2 : areach s -> atrace s = l1 ++ AEBack c f i (OExc x) :: l2 ->
  (∃ l', l2 = AEFinish f (Some x) :: l') ∧ ∀ c' i' o, AEBack c' f i' o ∉ l1.
Proof.
  intros HR Ht. destruct (C29_completion_follows_stop s c f i (OExc x) l1 l2 HR Ht) as (_ & _ & y & l' & -> & ->). split; [eauto|].
  intros c' i' o (a & b & ->)%elem_of_list_split. rewrite <- app_assoc in Ht. cbn in Ht.
  destruct (C29_completion_follows_stop s c' f i' o a _ HR Ht) as (_ & _ & z & l3 & Hz & Ho).
  pose proof (reach_legal _ HR) as Hl. rewrite Ht in Hl. apply alegal_app in Hl as [_ Hl]. rewrite Hz in Hl. destruct Hl as [Hlz Hl].
  assert (Hin : AEFinish f (Some x) ∈ l3).
  { destruct b as [|b0 b]; cbn in Hz; injection Hz as <- <-.
    - left.
    - apply elem_of_app. right. right. left. }
  pose proof (finish_once f (Some x) l3 Hl Hin) as Hfin.
  assert (Hz' : alegal z l3 -> aphase_of f l3 = QRun).
  { intros [_ Hzz]. destruct o; [destruct Ho as [v ->]| |]; subst; cbn in Hzz; apply Hzz. }
  destruct Hfin as [Hfin|Hfin]; rewrite Hz' in Hfin; done.
Qed.
Print Assumptions C31_exception_once.
Example ex_C31_exception_once : ∃ l1 l2, atrace ex29_end = l1 ++ AEBack 1 2 0 (OExc 7) :: l2 ∧ l1 ≠ [].
Proof. eexists [_; _; _], _. vm_compute. done. Qed.

(** An iterator that equals end() stays equal to end() for ever. *)
Theorem C31_end_stays_end {V E} (s s' : astate V E) i : areach s -> aexec s s' -> aiters s !! i = Some None -> aiters s' !! i = Some None.
Proof.
  intros HR Hex Hi. induction Hex as [s|s s1 s2 H1 IH Hs|s s1 s2 e H1 IH Hs]; [done|..].
  - eapply (none_stays i s1); [apply inv_reach; by eapply reach_exec|by left|by apply IH].
  - eapply (none_stays i s1); [apply inv_reach; by eapply reach_exec|right; by exists e|by apply IH].
Qed.
Print Assumptions C31_end_stays_end.
Example ex_C31_end_stays_end : aiters ex29_end !! 0 = Some None.
Proof. vm_compute. reflexivity. Qed.

(** ** C32 (violated) *)
(** The consumer awaits a begin() that awaits a Task; the generator is owned elsewhere and destroyed; the Task completes. *)
Definition destroy_waiting : list (aenv nat nat) :=
  [EvCall (ANew aprod_task (λ g, ASpawn (ABegin g [] (λ _, ARet)) (ADrop g ARet)))].
Theorem C32_destroy_suspended_refuted : ¬ ∀ (s : astate nat nat) e r, areach s -> aenv_step e s ≠ AUB r.
Proof. intros H. apply (H (arun destroy_waiting 100) (EvFire 0 0) AFreed (arun_reach _ _)). vm_compute. reflexivity. Qed.
Print Assumptions C32_destroy_suspended_refuted.

(** In every program: a completion can only be undefined if the awaiting coroutine was destroyed while it awaited something
    that keeps its handle, such as a Task. *)
Theorem C32_only_unsafe_awaits {V E} (s : astate V E) e r : areach s -> aenv_step e s = AUB r ->
  ∃ pid v f, e = EvFire pid v ∧ apend s !! pid = Some f ∧ aphase_of f (atrace s) = QGone ∧ AELeaf f false ∈ atrace s ∧ r = AFreed.
Proof.
  intros HR Hs. destruct (inv_reach _ HR) as (_ & _ & HP & _). unfold aenv_step in Hs. destruct (astack s); [|done]. destruct e as [p|pid v]; [done|].
  destruct (apend s !! pid) as [f|] eqn:Hp; [|done]. exists pid, v, f. split; [done|]. split; [done|].
  destruct (p_owner _ _ _ _ HP pid f Hp) as [(fr & sf & ls & c & Hf & Hst)|(Hf & ? & ?)].
  - rewrite Hf, Hst in Hs. by rewrite decide_True in Hs.
  - rewrite Hf in Hs. injection Hs as <-. done.
Qed.
Print Assumptions C32_only_unsafe_awaits.
Example ex_C32_only_unsafe_awaits : areach (arun destroy_waiting 100) ∧ aenv_step (EvFire 0 0) (arun destroy_waiting 100) = AUB AFreed.
Proof. split; [apply arun_reach|vm_compute; reflexivity]. Qed.

(** Destroying a generator whose body awaits something that forgets destroyed coroutines removes the pending completion
    (so it can have no effect), and the generator objects local to the body are destroyed too. *)
Theorem C32_safe_await_cancelled {V E} (s s' : astate V E) w g p st f fr pid ls c : areach s -> astack s = ARun w (ADrop g p) :: st ->
  agens s !! g = Some (Some f) -> aheap s !! f = Some fr -> astat fr = SLeaf pid true ls c -> astep s = ANext s' ->
  apend s' !! pid = None ∧ (∀ pid' f', pid' ≠ pid -> apend s !! pid' = Some f' -> apend s' !! pid' = Some f') ∧
  aheap s' !! f = None ∧ astack s' = ADrops ls :: ARun w p :: st ∧ atrace s' = AEDestroy f :: AEAct w (XDrop g) :: atrace s.
Proof.
  intros HR Hst Hg Hf Hs Hn. unfold astep in Hn. rewrite Hst in Hn. cbn in Hn. unfold adrop, adestroy in Hn. cbn in Hn. rewrite Hg in Hn. cbn in Hn.
  rewrite Hf, Hs in Hn. injection Hn as <-. cbn. rewrite lookup_delete. split; [done|]. split; [|by rewrite lookup_delete].
  intros pid' f' Hne Hp. by rewrite lookup_delete_ne.
Qed.
Print Assumptions C32_safe_await_cancelled.
Definition destroy_waiting_safe : aenv nat nat :=
  EvCall (ANew (ALeaf true [] (λ _, AYield 10 [] ARet)) (λ g, ASpawn (ABegin g [] (λ _, ARet)) (ADrop g ARet))).
Example ex_C32_safe_await_cancelled : ∃ s s' w g p st f fr pid ls c, areach s ∧ astack (V:=nat) (E:=nat) s = ARun w (ADrop g p) :: st ∧
  agens s !! g = Some (Some f) ∧ aheap s !! f = Some fr ∧ astat fr = SLeaf pid true ls c ∧ astep s = ANext s'.
Proof.
  exists (arun_to [] destroy_waiting_safe 4). do 10 eexists. split; [apply arun_to_reach|]. split; [vm_compute; reflexivity|].
  split; [vm_compute; reflexivity|]. split; [vm_compute; reflexivity|]. split; vm_compute; reflexivity.
Qed.

(** After its destruction nothing of a coroutine happens any more. *)
Theorem C32_nothing_after_destruction {V E} (s : astate V E) f l1 l2 : areach s -> atrace s = l1 ++ AEDestroy f :: l2 ->
  (∀ e, e ∈ l1 -> by_co e ≠ Some f) ∧ (∀ c j, AEAdv c f j ∉ l1) ∧ ∀ v, AEFire f v ∉ l1.
Proof.
  intros HR Ht. pose proof (reach_legal _ HR) as Hl. rewrite Ht in Hl.
  assert (Hgo : ∀ a e b, l1 = a ++ e :: b -> alegal e (b ++ AEDestroy f :: l2) ∧ aphase_of f (b ++ AEDestroy f :: l2) = QGone).
  { intros a e b ->. rewrite <- app_assoc in Hl. cbn in Hl. apply alegal_app in Hl as [He Hl]. split; [done|].
    apply destroy_gone; [done|]. apply elem_of_app. right. left. }
  split; [|split].
  - intros e (a & b & Hab)%elem_of_list_split Hb. destruct (Hgo _ _ _ Hab) as [He Hp]. pose proof (by_runs _ _ _ He Hb). congruence.
  - intros c j (a & b & Hab)%elem_of_list_split. destruct (Hgo _ _ _ Hab) as [[_ He] Hp]. cbn in He. rewrite Hp in He. naive_solver.
  - intros v (a & b & Hab)%elem_of_list_split. destruct (Hgo _ _ _ Hab) as [[_ He] Hp]. cbn in He. congruence.
Qed.
Print Assumptions C32_nothing_after_destruction.
Example ex_C32_nothing_after_destruction : ∃ l1 l2, atrace ex29_end = l1 ++ AEDestroy 2 :: l2 ∧ l1 ≠ [].
Proof. eexists [_], _. vm_compute. done. Qed.

(** ** C61 *)
Theorem C61_destroyed_once {V E} (s : astate V E) f l1 l2 : areach s -> atrace s = l1 ++ AEDestroy f :: l2 -> AEDestroy f ∉ l1 ∧ AEDestroy f ∉ l2.
Proof.
  intros HR Ht. pose proof (reach_legal _ HR) as Hl. rewrite Ht in Hl. split.
  - intros (a & b & ->)%elem_of_list_split. rewrite <- app_assoc in Hl. cbn in Hl. apply alegal_app in Hl as [[_ [He _]] Hl].
    rewrite (destroy_gone f) in He; [done|done|]. apply elem_of_app. right. left.
  - intros Hd. apply alegal_app in Hl as [[_ [He _]] Hl]. by rewrite (destroy_gone f) in He.
Qed.
Print Assumptions C61_destroyed_once.
Example ex_C61_destroyed_once : ∃ l1 l2, atrace ex29_end = l1 ++ AEDestroy 2 :: l2 ∧ l1 ≠ [].
Proof. eexists [_], _. vm_compute. done. Qed.

(** Every async generator coroutine is destroyed, or owned by exactly one AsyncGenerator object, unless its owner was
    move-assigned to (C27). *)
Theorem C61_one_owner {V E} (s : astate V E) f b : areach s -> AENew f b ∈ atrace s -> AEDestroy f ∉ atrace s ->
  (∀ w, AEAct w (XAssign (Some f)) ∉ atrace s) ->
  ∃ g, agens s !! g = Some (Some f) ∧ ∀ g', agens s !! g' = Some (Some f) -> g' = g.
Proof.
  intros HR Hn Hd Ha. destruct (inv_reach _ HR) as (HH & HO & _). pose proof (h_legal _ _ _ _ HH) as Hl.
  assert (Hm : made f (atrace s) = true) by (apply made_new; eauto). destruct (aheap s !! f) as [fr|] eqn:Hf.
  - pose proof (h_some _ _ _ _ _ _ HH Hf) as (_ & _ & Hp & _). rewrite Hm in Hp.
    destruct (o_own _ _ _ _ HO f fr Hf Hp) as [[g Hg]|[w Hw]]; [|by destruct (Ha w)].
    exists g. split; [done|]. intros g' Hg'. by apply (o_uniq _ _ _ _ HO _ _ f).
  - exfalso. destruct (h_none _ _ _ _ _ HH Hf) as [[(Hp & _)|Hp] _]; [by apply (made_not_none _ _ _ Hl Hn)|]. by apply Hd, gone_made_destroyed.
Qed.
Print Assumptions C61_one_owner.
Example ex_C61_one_owner : AENew 2 aprod2_throw ∈ atrace ex29_mid ∧ AEDestroy 2 ∉ atrace ex29_mid ∧ agens ex29_mid !! 0 = Some (Some 2).
Proof. split; [in_|]. split; [not_in (ais_destroy 2)|vm_compute; reflexivity]. Qed.

(** It is destroyed only together with its owning object ... *)
Theorem C61_destroyed_with_owner {V E} (s s' : astate V E) f : areach s -> astep s = ANext s' -> AEDestroy f ∈ atrace s' -> AEDestroy f ∉ atrace s ->
  ∃ g, agens s !! g = Some (Some f) ∧ agens s' !! g = None.
Proof.
  intros HR Hs Hin Hni. destruct (own_step s s' (inv_reach _ HR)) as [_ _ (evs & Hev & Hd & _)]; [by left|]. rewrite Hev in Hin.
  apply elem_of_app in Hin as [Hin|?]; [|done]. by apply Hd.
Qed.
Print Assumptions C61_destroyed_with_owner.
(** ... and destroying the owner does destroy it, wherever it is suspended, with the generator objects local to its body. *)
Theorem C61_owner_destroys {V E} (s : astate V E) w g p st f : areach s -> astack s = ARun w (ADrop g p) :: st -> agens s !! g = Some (Some f) ->
  aphase_of f (atrace s) ≠ QRun ->
  ∃ s' ls, astep s = ANext s' ∧ atrace s' = AEDestroy f :: AEAct w (XDrop g) :: atrace s ∧ astack s' = ADrops ls :: ARun w p :: st ∧
    agens s' = delete g (agens s) ∧ aheap s' = delete f (aheap s) ∧
    ∀ fr, aheap s !! f = Some fr ->
      ls = match astat fr with SYield _ l _ | SLeaf _ _ l _ | SBegin _ l _ | SInc _ _ l _ => l | _ => [] end.
Proof.
  intros HR Hst Hg Hp. destruct (inv_reach _ HR) as (HH & HO & _). destruct (o_gh _ _ _ _ HO g f Hg) as (fr & Hf & _).
  rewrite (proj1 (h_some _ _ _ _ _ _ HH Hf)) in Hp. unfold astep. rewrite Hst. cbn. unfold adrop, adestroy. cbn. rewrite Hg. cbn. rewrite Hf.
  destruct (astat fr) as [| | |pid [] ls c| | |] eqn:Hs; cbn in Hp; try done; eexists _, _; (split; [reflexivity|]); (do 4 (split; [done|])); intros fr' [= <-]; by rewrite Hs.
Qed.
Print Assumptions C61_owner_destroys.
Example ex_C61_owner_destroys : ∃ s w g p st f, areach s ∧ astack (V:=nat) (E:=nat) s = ARun w (ADrop g p) :: st ∧ agens s !! g = Some (Some f) ∧
  aphase_of f (atrace s) = QLeaf.
Proof.
  exists (arun_to [] destroy_waiting_safe 4). do 5 eexists. split; [apply arun_to_reach|]. split; [vm_compute; reflexivity|].
  split; [vm_compute; reflexivity|]. vm_compute; reflexivity.
Qed.
(** Local generators are destroyed one after the other. *)
Theorem C61_locals_destroyed {V E} (s : astate V E) g l st h : areach s -> astack s = ADrops (g :: l) :: st -> agens s !! g = Some h ->
  (∀ f, h = Some f -> aphase_of f (atrace s) ≠ QRun) ->
  ∃ s', astep s = ANext s' ∧ agens s' = delete g (agens s) ∧ (∀ f, h = Some f -> AEDestroy f ∈ atrace s') ∧
    (astack s' = ADrops l :: st ∨ ∃ ls, astack s' = ADrops ls :: ADrops l :: st).
Proof.
  intros HR Hst Hg Hp. destruct (inv_reach _ HR) as (HH & HO & _). unfold astep. rewrite Hst. unfold adrop, adestroy. cbn. rewrite Hg.
  destruct h as [f|]; [|eexists; split; [reflexivity|]; cbn; split; [done|]; split; [done|]; by left].
  specialize (Hp f eq_refl). destruct (o_gh _ _ _ _ HO g f Hg) as (fr & Hf & _). rewrite (proj1 (h_some _ _ _ _ _ _ HH Hf)) in Hp. cbn. rewrite Hf.
  destruct (astat fr) as [| | |pid [] ls c| | |]; cbn in Hp; try done; eexists; (split; [reflexivity|]); cbn; (split; [done|]); (split; [intros ? [= <-]; left|]); eauto.
Qed.
Print Assumptions C61_locals_destroyed.
(** A producer that owns another generator, abandoned after the first value. *)
Definition nested_abandon_a : aenv nat nat :=
  main (ANew (ANew aprod2 (λ g, AYield 1 [g] (ADrop g ARet))) (λ o, ABegin o [o] (λ _, ADrop o ARet))).
Example ex_C61_locals_destroyed : ∃ s g l st, areach s ∧ astack (V:=nat) (E:=nat) s = ADrops (g :: l) :: st ∧ agens s !! g = Some (Some 3) ∧
  aphase_of 3 (atrace s) ≠ QRun.
Proof. exists (arun_to [] nested_abandon_a 6). do 3 eexists. split; [apply arun_to_reach|]. split; [vm_compute; reflexivity|]. split; [vm_compute; reflexivity|]. by vm_compute. Qed.

(** ** C27 (violated): AsyncGenerator half *)
Definition assign_leak_a : aenv nat nat := EvCall (ANew aprod2 (λ g, ANew aprod2_throw (λ h, AAssign g h (ADrop h (ADrop g ARet))))).
Theorem C27_async_assign_releases_refuted : ¬ ∀ (s : astate nat nat) f b, areach s -> astack s = [] -> agens s = ∅ -> apend s = ∅ ->
  AENew f b ∈ atrace s -> AEDestroy f ∈ atrace s.
Proof.
  intros H. specialize (H (arun [assign_leak_a] 100) 1 aprod2 (arun_reach _ _)).
  assert (Hd : AEDestroy 1 ∈ atrace (arun [assign_leak_a] 100)); [apply H; [vm_compute; reflexivity|dec|dec|in_]|].
  revert Hd. not_in (ais_destroy 1).
Qed.
Print Assumptions C27_async_assign_releases_refuted.
Definition assign_self_a : aenv nat nat := EvCall (ANew aprod2 (λ g, AAssign g g (ADrop g ARet))).
Theorem C27_async_self_assign_refuted : ¬ ∀ (s s' : astate nat nat) w g p st, areach s -> astack s = ARun w (AAssign g g p) :: st -> astep s = ANext s' ->
  agens s' = agens s.
Proof.
  intros H. specialize (H (arun_to [] assign_self_a 1) (arun_to [] assign_self_a 2) (Fun 0) 0 (ADrop 0 ARet) [] (arun_to_reach _ _ _)).
  assert (Hq : agens (arun_to [] assign_self_a 2) !! 0 = agens (arun_to [] assign_self_a 1) !! 0) by (f_equal; apply H; vm_compute; reflexivity).
  vm_compute in Hq. done.
Qed.
Print Assumptions C27_async_self_assign_refuted.
Theorem C27_async_assigned_over_leaks {V E} (s : astate V E) w f : areach s -> AEAct w (XAssign (Some f)) ∈ atrace s ->
  AEDestroy f ∉ atrace s ∧ ∀ g, agens s !! g ≠ Some (Some f).
Proof. intros HR Hin. destruct (assigned_lost s w f HR Hin) as (_ & ? & ?). done. Qed.
Print Assumptions C27_async_assigned_over_leaks.
Example ex_C27_async_assigned_over_leaks : AEAct (Fun 0) (XAssign (Some 1)) ∈ atrace (arun [assign_leak_a] 100).
Proof. in_. Qed.

(** ** C62 (violated) *)
(** QCORO_FOREACH(v, g); co_await g.begin(); *)
Definition begin_done_a : ap := ANew (AYield 10 [] ARet) (λ g, aforeach g [g] (λ _, []) (λ _, ABegin g [g] (λ _, ARet))).
Theorem C62_begin_finished_refuted : ¬ ∀ (s : astate nat nat) w g ls c st f, areach s -> astack s = ARun (Co w) (ABegin g ls c) :: st ->
  agens s !! g = Some (Some f) -> aphase_of f (atrace s) = QFin -> ∃ s', astep s = ANext s'.
Proof.
  intros H. destruct (H (arun_to [] (main begin_done_a) 100) 1 0 [0] (λ _, ARet) [ARun (Fun 0) ARet] 2 (arun_to_reach _ _ _)) as [s' Hs];
    [vm_compute; reflexivity|vm_compute; reflexivity|vm_compute; reflexivity|]. vm_compute in Hs. done.
Qed.
Print Assumptions C62_begin_finished_refuted.
Definition inc_end_a : ap := AEnd (λ i, AInc i [] (λ _, ARet)).
Theorem C62_increment_end_refuted : ¬ ∀ (s : astate nat nat) w i ls c st, areach s -> astack s = ARun (Co w) (AInc i ls c) :: st ->
  aiters s !! i = Some None -> ∃ s', astep s = ANext s'.
Proof.
  intros H. destruct (H (arun_to [] (main inc_end_a) 2) 1 0 [] (λ _, ARet) [ARun (Fun 0) ARet] (arun_to_reach _ _ _)) as [s' Hs];
    [vm_compute; reflexivity|vm_compute; reflexivity|]. vm_compute in Hs. done.
Qed.
Print Assumptions C62_increment_end_refuted.
(** In every state: co_await begin() is well defined exactly on empty, not started, or co_yield-suspended generators. *)
Theorem C62_begin_defined_iff {V E} (s : astate V E) w g ls c st h : areach s -> astack s = ARun (Co w) (ABegin g ls c) :: st -> agens s !! g = Some h ->
  (∃ s', astep s = ANext s') <->
  match h with None => True | Some f => aphase_of f (atrace s) = QInit ∨ ∃ v, aphase_of f (atrace s) = QYield v end.
Proof.
  intros HR Hst Hg. pose proof (inv_reach _ HR) as HI. pose proof HI as (HH & HO & _). unfold astep. rewrite Hst. cbn. rewrite Hg. destruct h as [f|]; [|split; eauto].
  destruct (h_act _ _ _ _ w HH) as (fw & Hw & Hr); [rewrite Hst; left|]. rewrite Hw.
  destruct (o_gh _ _ _ _ HO g f Hg) as (fr & Hf & _). pose proof (h_some _ _ _ _ _ _ HH Hf) as [Hp _]. unfold ago. cbn.
  destruct (decide (w = f)) as [->|Hne].
  - rewrite lookup_insert. cbn. rewrite Hp. assert (fr = fw) as -> by congruence. rewrite Hr. cbn. split; [by intros [? ?]|]. by intros [?|[? ?]].
  - rewrite lookup_insert_ne, Hf, Hp by done. destruct (astat fr) eqn:Hs; cbn; split; try (by eauto); try (by intros [? ?]); by intros [?|[? ?]].
Qed.
Print Assumptions C62_begin_defined_iff.
Example ex_C62_begin_defined_iff : ∃ s w g ls c st h, areach s ∧ astack (V:=nat) (E:=nat) s = ARun (Co w) (ABegin g ls c) :: st ∧ agens s !! g = Some h.
Proof. exists (arun_to [] (main begin_done_a) 100). do 6 eexists. split; [apply arun_to_reach|]. split; vm_compute; reflexivity. Qed.
(** ... and ++ exactly on an iterator whose generator exists and is suspended at a co_yield. *)
Theorem C62_increment_defined_iff {V E} (s : astate V E) w i ls c st h : areach s -> astack s = ARun (Co w) (AInc i ls c) :: st -> aiters s !! i = Some h ->
  (∃ s', astep s = ANext s') <-> ∃ f v, h = Some f ∧ aphase_of f (atrace s) = QYield v.
Proof.
  intros HR Hst Hi. pose proof (inv_reach _ HR) as HI. pose proof HI as (HH & HO & _ & HIt). unfold astep. rewrite Hst. cbn. rewrite Hi.
  destruct h as [f|]; [|split; [by intros [? ?]|by intros (? & ? & ? & _)]].
  destruct (h_act _ _ _ _ w HH) as (fw & Hw & Hr); [rewrite Hst; left|]. rewrite Hw. unfold ago. cbn.
  destruct (decide (w = f)) as [->|Hne].
  - rewrite lookup_insert. cbn. pose proof (h_some _ _ _ _ _ _ HH Hw) as [Hp _]. rewrite Hr in Hp. split; [by intros [? ?]|]. intros (f' & v & [= <-] & ?). cbn in Hp. congruence.
  - rewrite lookup_insert_ne by done. destruct (aheap s !! f) as [fr|] eqn:Hf.
    + pose proof (h_some _ _ _ _ _ _ HH Hf) as [Hp _]. assert (Hni : ∀ b, astat fr ≠ SInit b).
      { intros b Hb. rewrite Hb in Hp. cbn in Hp. destruct (init_adv f _ (h_legal _ _ _ _ HH) Hp) as [Hx _].
        destruct (i_adv _ _ _ _ HIt i f Hi) as [? Hy]. congruence. }
      destruct (astat fr) eqn:Hs; cbn in *; split; try (by intros [? ?]); try (by eauto); try (by intros (f' & v0 & [= <-] & ?); congruence).
      by destruct (Hni b).
    + destruct (h_none _ _ _ _ _ HH Hf) as [[(Hp & _)|Hp] _]; split; try (by intros [? ?]); intros (f' & v & [= <-] & ?); congruence.
Qed.
Print Assumptions C62_increment_defined_iff.
Example ex_C62_increment_defined_iff : ∃ s w i ls c st h, areach s ∧ astack (V:=nat) (E:=nat) s = ARun (Co w) (AInc i ls c) :: st ∧ aiters s !! i = Some h.
Proof. exists (arun_to [] (main inc_end_a) 2). do 6 eexists. split; [apply arun_to_reach|]. split; vm_compute; reflexivity. Qed.
