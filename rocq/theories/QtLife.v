(** * The lifetime of the device: facts for PropsLife.v. *)
From stdpp Require Import list.
From Coq Require Import ZArith.
From Verif Require Import QtModel QtSpec QtInv QtAwait QtReach QtWrap QtTrace QtBehave QtCall QtEnds QtCall2 QtObj QtIO QtIOSpec QtIOFacts QtIOEnds.

Section trace.
Context {D S P O A : Type}.
Notation wstate := (@wstate D S P O A).
Notation tev := (@tev D S P O A).

(** Internal steps do not destroy the object. *)
Definition keeps_obj (s s' : wstate) : Prop := walive s' = walive s ∧ ∃ l, wtrace s' = l ++ wtrace s ∧ TDestroy ∉ l.
Lemma ko_refl s : keeps_obj s s. Proof. split; [done|]. exists []. split; [done|]. by intros ?%elem_of_nil. Qed.
Lemma ko_trans s s1 s2 : keeps_obj s s1 -> keeps_obj s1 s2 -> keeps_obj s s2.
Proof. intros [H (l & Hl & Hn)] [H' (l' & Hl' & Hn')]. split; [congruence|]. exists (l' ++ l). split; [rewrite Hl', Hl; apply app_assoc|]. by intros [?|?]%elem_of_app. Qed.
Lemma ko_same (s s' : wstate) : walive s' = walive s -> wtrace s' = wtrace s -> keeps_obj s s'.
Proof. intros Ha Ht. split; [done|]. exists []. split; [done|]. by intros ?%elem_of_nil. Qed.
Lemma ko_log (s s' : wstate) e : walive s' = walive s -> wtrace s' = e :: wtrace s -> e ≠ TDestroy -> keeps_obj s s'.
Proof. intros Ha Ht He. split; [done|]. exists [e]. split; [done|]. intros ?%elem_of_list_singleton. congruence. Qed.
Lemma ko_trigger a p (s : wstate) : keeps_obj s (trigger a p s).
Proof. destruct (trigger_same a p s) as (? & _ & ?). by apply ko_same. Qed.
Lemma ko_ready sg p (s : wstate) : keeps_obj s (ready sg p s).
Proof.
  unfold ready. destruct (whelp s) as [[[i h] live]|]; [|by apply ko_same]. set (s1 := wlog _ _).
  assert (keeps_obj s s1) by (by eapply ko_log). destruct (waw s1) as [a|]; [|done]. destruct (asrc a); [done|]. destruct (aconn a); [|done].
  eapply ko_trans; [done|]. apply ko_trigger.
Qed.
Lemma ko_emit sg p (s : wstate) : keeps_obj s (emit sg p s).
Proof.
  unfold emit. set (s1 := wlog _ _). assert (H1 : keeps_obj s s1) by (by eapply ko_log).
  destruct (existsb _ _); [exact H1|]. set (s2 := helper_slot _ _ _).
  assert (H2 : keeps_obj s s2).
  { eapply ko_trans; [exact H1|]. unfold s2, helper_slot. clearbody s1. destruct (whelp s1) as [[[i h] live]|]; [|apply ko_refl]. destruct (live sg); [|apply ko_refl].
    destruct (relay h sg p (wdev s1)) as [[[[|] q] [d|]]|]; try apply ko_refl; try (by apply ko_same); try apply ko_ready.
    eapply ko_trans; [|apply ko_ready]. by eapply ko_log. }
  clearbody s2. destruct (waw s2) as [a|]; [|done]. destruct (asrc a) as [m|]; [|done]. destruct (aconn a); [|done]. destruct (m sg p); [|done].
  eapply ko_trans; [done|]. apply ko_trigger.
Qed.
Lemma ko_emits ems : ∀ s : wstate, keeps_obj s (foldl (λ s e, emit (fst e) (snd e) s) s ems).
Proof. induction ems as [|[sg p] ems IH]; intros s; [apply ko_refl|]. cbn. eapply ko_trans; [apply ko_emit|apply IH]. Qed.
Lemma ko_step (s s' : wstate) : step s = Next s' -> keeps_obj s s'.
Proof.
  unfold step. destruct (wubs s); [done|]. destruct (wco s) as [p|k|k|a].
  - intros [= <-]. destruct p; try (by apply ko_same); try (by eapply ko_log).
    + destruct (walive s) eqn:E; by apply ko_same.
    + destruct (walive s) eqn:E; [|by apply ko_same]. eapply ko_trans; [|apply ko_emits]. by eapply ko_log.
    + destruct (whelp s); [by apply ko_same|]. destruct (walive s) eqn:E; by apply ko_same.
    + unfold drop_helper. cbn. destruct (whelp s) as [[[??]?]|]; by apply ko_same.
    + unfold await. destruct c; [destruct (walive s) eqn:E|destruct (whelp s)]; try (by eapply ko_log). by apply ko_same.
  - destruct (wtodo s) as [|[sg p] q]; [done|]. intros [= <-]. eapply ko_trans; [|apply ko_emit]. by apply ko_same.
  - intros [= <-]. unfold drop_awaiter. destruct (waw s); by eapply ko_log.
  - destruct (wtodo s) as [|[sg p] q]; [done|]. intros [= <-]. eapply ko_trans; [|apply ko_emit]. by apply ko_same.
Qed.
Lemma ko_env e (s s' : wstate) : e ≠ EvDestroy -> env_step e s = Next s' -> keeps_obj s s'.
Proof.
  destruct e; cbn; intros Hne; try done.
  - destruct (walive s); [|done]. intros [= <-]. by eapply ko_log.
  - destruct (wposted s) as [|[i p|i sg p] q]; [done|..].
    + destruct (waw s) as [a|]; [destruct (decide _)|]; intros [= <-]; try (by apply ko_same). unfold resume. cbn. destruct (wco s); by apply ko_same.
    + destruct (whelp s) as [[[j h] live]|]; [destruct (decide _)|]; intros [= <-]; try (by apply ko_same). eapply ko_trans; [|apply ko_ready]. by apply ko_same.
  - destruct (wshots s); [done|]. intros [= <-]. unfold resume. cbn. destruct (wco s); by apply ko_same.
  - destruct (waw s) as [a|]; [|done]. destruct (atimer a); [|done]. destruct (decide _); [|done]. intros [= <-]. destruct (actx a); [|by eapply ko_log].
    unfold resume. cbn. destruct (wco s); by eapply ko_log.
  - intros [= <-]. by eapply ko_log.
Qed.
Lemma destroyed_dead denv (s0 s : wstate) : exec denv s0 s -> ∀ l, wtrace s = l ++ wtrace s0 -> TDestroy ∈ l -> dead s.
Proof.
  induction 1 as [s|s0 s s' H IH Hs|s0 s e s' H IH Hi Hu He Hd]; intros l Hl Hin.
  - assert (l = []) as -> by (by apply (app_inv_tail (wtrace s)); rewrite <- Hl). by apply elem_of_nil in Hin.
  - destruct (exec_grows _ _ _ H) as [l1 Hl1]. destruct (ko_step _ _ Hs) as [_ (x & Hx & Hn)].
    assert (l = x ++ l1) as -> by (apply (app_inv_tail (wtrace s0)); rewrite <- Hl, Hx, Hl1; apply app_assoc).
    apply elem_of_app in Hin as [?|Hin]; [done|]. by apply (dead_step _ _ (IH l1 Hl1 Hin) Hs).
  - destruct (exec_grows _ _ _ H) as [l1 Hl1]. destruct (destroy_dec l1) as [Hd1|Hd1].
    { apply (dead_env e _ _ (IH l1 Hl1 Hd1) He). }
    assert (e = EvDestroy) as ->.
    { assert (Hdec : e = EvDestroy ∨ e ≠ EvDestroy) by (destruct e; auto; by right). destruct Hdec as [?|Hne]; [done|]. exfalso. destruct (ko_env _ _ _ Hne He) as [_ (x & Hx & Hn)].
      assert (l = x ++ l1) as -> by (apply (app_inv_tail (wtrace s0)); rewrite <- Hl, Hx, Hl1; apply app_assoc). apply elem_of_app in Hin as [?|?]; done. }
    cbn in He. destruct (walive s); [|done]. injection He as <-. split; [done|]. cbn. unfold step in Hi. rewrite Hu in Hi.
    destruct (wco s); try done; by destruct (wtodo s) as [|[??] ?].
Qed.
(** After the destruction no signal is emitted. *)
Lemma destroyed_silent denv (s0 s s' : wstate) l : exec denv s0 s -> exec denv s s' -> wtrace s = l ++ wtrace s0 -> TDestroy ∈ l ->
  ∃ x, wtrace s' = x ++ wtrace s ∧ silent x.
Proof. intros H1 H2 Hl Hd. by destruct (dead_exec _ _ _ H2 (destroyed_dead _ _ _ H1 _ Hl Hd)) as [_ ?]. Qed.

(** A call that is undefined at once. *)
Lemma dead_call denv (s0 s1 s : wstate) u : step s0 = Next s1 -> wubs s1 = Some u -> wtrace s1 = wtrace s0 -> exec denv s0 s ->
  s = s0 ∨ wubs s = Some u ∧ wtrace s = wtrace s0.
Proof.
  intros Hst Hu Ht Hx. destruct (exec_inv _ _ _ Hx) as [->|[(s1' & Hst' & Hx')|(e & s1' & Hst' & _)]]; [by left| |congruence]. right.
  rewrite Hst in Hst'. injection Hst' as <-.
  destruct (exec_inv _ _ _ Hx') as [->|[(s2 & Hst' & _)|(e & s2 & _ & Hu' & _)]]; [done| |congruence].
  unfold step in Hst'. by rewrite Hu in Hst'.
Qed.
End trace.

Section hang.
Context {D S P O A : Type}.
Notation wstate := (@wstate D S P O A).
Notation wprog := (@wprog D S P O).
Notation tev := (@tev D S P O A).
#[local] Arguments relays : simpl never.

(** Steps without trace can be skipped. *)
Lemma exec_skip denv (s0 s1 s : wstate) : step s0 = Next s1 -> wtrace s1 = wtrace s0 -> exec denv s0 s -> wtrace s ≠ wtrace s0 -> exec denv s1 s ∧ wtrace s ≠ wtrace s1.
Proof.
  intros Hst Ht Hx Hne. destruct (exec_inv _ _ _ Hx) as [->|[(s1' & Hst' & Hx')|(e & s1' & Hst' & _)]]; [done| |congruence].
  rewrite Hst in Hst'. injection Hst' as <-. split; [done|congruence].
Qed.

Lemma relays_silent h (d : D) (l : list tev) : silent l -> relays h d l = [].
Proof.
  induction l as [|e l IH]; intros Hs; [done|]. rewrite relays_cons, IH by (intros x ?; apply Hs; by right). specialize (Hs e (elem_of_list_here _ _)). by destruct e.
Qed.

(** Where an event that is not in the older part is. *)
Lemma split_new (x lw y l : list tev) e : y ++ e :: l = x ++ lw -> e ∉ lw -> ∃ x2, l = x2 ++ lw ∧ ∀ z, z ∈ x2 -> z ∈ x.
Proof.
  revert y. induction x as [|e' x IH]; intros y E Hn; cbn in E.
  - exfalso. apply Hn. rewrite <- E. apply elem_of_app. right. left.
  - destruct y as [|e2 y]; cbn in E; injection E as -> E.
    + exists x. split; [done|]. intros z ?. by right.
    + destruct (IH y E Hn) as (x2 & -> & Hz). exists x2. split; [done|]. intros z ?. right. auto.
Qed.

(** Waiting through a helper, without timeout, for a signal of an object that is destroyed before it emitted one. *)
Lemma helper_hang denv h (k : option P -> wprog A) (s0 s s' : wstate) lw : clean s0 -> wubs s0 = None -> noleak s0 -> walive s0 = true -> whelp s0 = None ->
  wco s0 = CRun (qCoro_helper h None k) -> exec denv s0 s -> wtrace s = lw ++ TSusp FromHelper None :: wtrace s0 -> quiet lw -> TDestroy ∈ lw ->
  relays h (wdev s0) lw = [] -> exec denv s s' ->
  wubs s' = None ∧ ∃ x, wtrace s' = x ++ wtrace s ∧ quiet x.
Proof.
  intros Hcl Hu Hl Ha Hh Hc Hx Ht Hq Hd Hr Hx'. rewrite (set_co_same _ _ Hc) in Hx. unfold qCoro_helper in Hx.
  assert (Hsil : ∃ x, wtrace s' = x ++ wtrace s ∧ silent x).
  { apply (destroyed_silent denv s0 s s' (lw ++ [TSusp FromHelper None])); [|done|rewrite Ht; by rewrite <- app_assoc|apply elem_of_app; by left].
    rewrite (set_co_same _ _ Hc). done. }
  destruct Hsil as (x & Hxt & Hxs).
  pose proof (exec_trans _ _ _ _ Hx Hx') as Hx0.
  assert (Hne : wtrace s' ≠ wtrace s0).
  { rewrite Hxt, Ht. intros E. apply (f_equal length) in E. rewrite !app_length in E. cbn in E. lia. }
  destruct (exec_skip denv _ _ s' (with_helper_step h (WAwait MQueued FromHelper None (λ r, WDrop (k r))) s0 Hu Ha Hh) eq_refl Hx0 Hne) as [Hy0 _].
  set (sh := with_helper h s0) in *. assert (Hclh : clean sh) by (by apply with_helper_clean). destruct (hready_new h s0 Hcl Hh) as (i0 & live0 & Eh0 & Hlv0 & Hrp0).
  fold sh in Eh0, Hlv0, Hrp0. set (kk := λ r, WDrop (k r)) in *.
  set (si := set_co (CRun (WAwait MQueued FromHelper None kk)) sh) in *.
  assert (Hcli : clean si) by (destruct Hclh; split; done).
  assert (Hubi : wubs si = None) by exact Hu.
  destruct (await_phase MQueued FromHelper None kk si) as (s1 & Hst & Hu1 & Hph); try done.
  destruct (exec_inv _ _ _ Hy0) as [E|[(s1' & Hst' & Hx1)|(e & s1' & Hst' & _)]]; [by rewrite E in Hne| |congruence].
  rewrite Hst in Hst'. injection Hst' as <-.
  assert (Hi : hinv h (wdev sh) (TSusp FromHelper None :: wtrace si) s1).
  { unfold step in Hst. rewrite Hubi in Hst. cbn in Hst. unfold await in Hst. change (whelp si) with (whelp sh) in Hst. try rewrite Eh0 in Hst. cbn in Hst. injection Hst as <-. intros l Hl'. cbn in Hl'.
    assert (l = []) as ->. { apply (app_inv_tail (TSusp FromHelper None :: wtrace sh)). by symmetry. }
    left. split; [done|]. split; [done|]. split; [by exists i0, live0|]. split; [by intros ? ? ?%elem_of_nil|]. exact Hrp0. }
  destruct (helper_exec denv h (wdev sh) _ _ _ _ _ _ _ s' eq_refl Hph Hu1 Hl Hi Hx1) as [(Hus & _ & l & Hp)|(l & v & s2 & Hre & Hi2 & Hz1 & Hz2)].
  - split; [done|]. exists x. split; [done|]. destruct Hp as [Hsi _]. rewrite app_nil_r in Hsi. pose proof (si_trace _ _ _ _ _ Hsi) as Htr. rewrite Hxt, Ht in Htr.
    change (wtrace si) with (wtrace s0) in Htr. rewrite app_assoc in Htr. apply app_inv_tail in Htr. intros e He. apply (si_quiet _ _ _ _ _ Hsi). rewrite <- Htr. apply elem_of_app. by left.
  - exfalso. rewrite app_nil_r in Hre. destruct (exec_grows _ _ _ Hz2) as [y Hy]. pose proof (re_trace _ _ _ _ _ _ _ _ Hre) as Htr. change (wtrace si) with (wtrace s0) in Htr.
    assert (Hyl : y ++ TResume v :: l = x ++ lw).
    { apply (app_inv_tail (TSusp FromHelper None :: wtrace s0)). rewrite <- !app_assoc. cbn. rewrite <- Ht, <- Hxt, Hy, Htr. done. }
    destruct (split_new _ _ _ _ _ Hyl) as (x2 & -> & Hx2).
    { intros Hin. by specialize (Hq _ Hin). }
    assert (Hrl : relays h (wdev sh) (x2 ++ lw) = []).
    { rewrite relays_app. change (wdev sh) with (wdev s0). rewrite Hr. cbn. apply relays_silent. intros e He. by apply Hxs, Hx2. }
    pose proof (re_res _ _ _ _ _ _ _ _ Hre) as Hres. destruct v as [p|]; [|by destruct Hres as (? & ? & ? & _)]. destruct Hres as [Hhd _].
    assert (Hhist : helper_hist h (wdev sh) (x2 ++ lw)).
    { destruct (Hi2 (TResume (Some p) :: x2 ++ lw)) as [(_ & He & _ & Hqq & _)|[p' Hf]].
      - rewrite Htr. done.
      - left. rewrite emissions_cons, relays_cons, !app_nil_r in *. done.
      - right. exists p'. destruct Hf as (l1 & l2 & E & Hf). destruct l1 as [|z l1]; [done|]. cbn in E. injection E as <- ->. exists l1, l2. done. }
    destruct (hist_relay _ _ _ _ Hhist Hhd) as [b Hin]. rewrite Hrl in Hin. by apply elem_of_nil in Hin.
Qed.
End hang.
