(** * The trace of the machine of QtModel.v only grows; a coroutine that waits and has nothing coming keeps waiting. *)
From stdpp Require Import list.
From Verif Require Import QtModel QtSpec QtInv QtAwait QtReach QtWrap.

Section trace.
Context {D S P O A : Type}.
Notation wstate := (@wstate D S P O A).
Notation tev := (@tev D S P O A).
Notation src := (@src S P).

Definition grows (s s' : wstate) : Prop := ∃ l, wtrace s' = l ++ wtrace s.
Lemma grows_refl (s : wstate) : grows s s. Proof. by exists []. Qed.
Lemma grows_trans s s1 s2 : grows s s1 -> grows s1 s2 -> grows s s2.
Proof. intros [l H] [l' H']. exists (l' ++ l). rewrite H', H. apply app_assoc. Qed.
Lemma grows_eq s s' : wtrace s' = wtrace s -> grows s s'. Proof. intros H. by exists []. Qed.
Lemma grows_cons s s' e : wtrace s' = e :: wtrace s -> grows s s'. Proof. intros H. by exists [e]. Qed.

Lemma resume_trace (s : wstate) : wtrace (resume s) = wtrace s.
Proof. unfold resume. by destruct (wco s). Qed.
Lemma trigger_trace a p (s : wstate) : wtrace (trigger a p s) = wtrace s.
Proof. unfold trigger. destruct (amode a); try done. by rewrite resume_trace. Qed.
Lemma ready_grows sg p (s : wstate) : grows s (ready sg p s).
Proof.
  unfold ready. destruct (whelp s) as [[[i h] live]|]; [|by apply grows_eq]. set (s1 := wlog _ _).
  assert (grows s s1) by (by eapply grows_cons). destruct (waw s1) as [a|]; [|done]. destruct (asrc a); [done|]. destruct (aconn a); [|done].
  eapply grows_trans; [done|]. apply grows_eq, trigger_trace.
Qed.
Lemma helper_slot_grows sg p (s : wstate) : grows s (helper_slot sg p s).
Proof.
  unfold helper_slot. destruct (whelp s) as [[[i h] live]|]; [|apply grows_refl]. destruct (live sg); [|apply grows_refl].
  destruct (relay h sg p (wdev s)) as [[[[|] q] [d|]]|]; try apply grows_refl; try (by apply grows_eq); try apply ready_grows.
  eapply grows_trans; [|apply ready_grows]. by eapply grows_cons.
Qed.
Lemma emit_grows sg p (s : wstate) : grows s (emit sg p s).
Proof.
  unfold emit. set (s1 := wlog _ _). assert (H1 : grows s s1) by (by eapply grows_cons).
  destruct (existsb _ _); [exact H1|]. set (s2 := helper_slot _ _ _).
  assert (H2 : grows s s2) by (eapply grows_trans; [exact H1|apply helper_slot_grows]). clearbody s2.
  destruct (waw s2) as [a|]; [|done]. destruct (asrc a) as [m|]; [|done]. destruct (aconn a); [|done]. destruct (m sg p); [|done].
  eapply grows_trans; [done|]. apply grows_eq, trigger_trace.
Qed.
Lemma emits_grows ems : ∀ s : wstate, grows s (foldl (λ s e, emit (fst e) (snd e) s) s ems).
Proof. induction ems as [|[sg p] ems IH]; intros s; [apply grows_refl|]. cbn. eapply grows_trans; [apply emit_grows|apply IH]. Qed.

Lemma step_grows (s s' : wstate) : step s = Next s' -> grows s s'.
Proof.
  unfold step. destruct (wubs s); [done|]. destruct (wco s) as [p|k|k|a].
  - intros [= <-]. destruct p; try (by apply grows_eq); try (by eapply grows_cons).
    + destruct (walive s); by apply grows_eq.
    + destruct (walive s); [|by apply grows_eq]. eapply grows_trans; [|apply emits_grows]. by eapply grows_cons.
    + destruct (whelp s); [by apply grows_eq|]. destruct (walive s); by apply grows_eq.
    + unfold drop_helper. cbn. destruct (whelp s) as [[[??]?]|]; by apply grows_eq.
    + unfold await. destruct c; [destruct (walive s)|destruct (whelp s)]; try (by eapply grows_cons). by apply grows_eq.
  - destruct (wtodo s) as [|[sg p] q]; [done|]. intros [= <-]. eapply grows_trans; [|apply emit_grows]. by apply grows_eq.
  - intros [= <-]. unfold drop_awaiter. destruct (waw s); by eapply grows_cons.
  - destruct (wtodo s) as [|[sg p] q]; [done|]. intros [= <-]. eapply grows_trans; [|apply emit_grows]. by apply grows_eq.
Qed.
Lemma env_grows e (s s' : wstate) : env_step e s = Next s' -> grows s s'.
Proof.
  destruct e; cbn.
  - destruct (walive s); [|done]. intros [= <-]. by eapply grows_cons.
  - destruct (walive s); [|done]. intros [= <-]. by eapply grows_cons.
  - destruct (wposted s) as [|[i p|i sg p] q]; [done|..].
    + destruct (waw s) as [a|]; [destruct (decide _)|]; intros [= <-]; try (by apply grows_eq). apply grows_eq. by rewrite resume_trace.
    + destruct (whelp s) as [[[j h] live]|]; [destruct (decide _)|]; intros [= <-]; try (by apply grows_eq). eapply grows_trans; [|apply ready_grows]. by apply grows_eq.
  - destruct (wshots s); [done|]. intros [= <-]. apply grows_eq. by rewrite resume_trace.
  - destruct (waw s) as [a|]; [|done]. destruct (atimer a); [|done]. destruct (decide _); [|done]. intros [= <-]. destruct (actx a); [|by eapply grows_cons].
    eapply grows_cons. by rewrite resume_trace.
  - intros [= <-]. by eapply grows_cons.
Qed.
Lemma exec_grows denv (s s' : wstate) : exec denv s s' -> grows s s'.
Proof.
  induction 1; [apply grows_refl|..].
  - eapply grows_trans; [done|]. by apply step_grows.
  - eapply grows_trans; [done|]. by eapply env_grows.
Qed.

(** A trace extension without a resumption tells that the coroutine was not resumed. *)
Lemma not_resumed denv m (c : src) to k (s0 s2 s : wstate) l l' v :
  resumed m c to k s0 s2 l v -> exec denv s2 s -> wtrace s = l' ++ TSusp c to :: wtrace s0 -> quiet l' -> False.
Proof.
  intros Hr Hx Ht Hq. destruct (exec_grows _ _ _ Hx) as [x Hg]. rewrite (re_trace _ _ _ _ _ _ _ _ Hr), Ht in Hg.
  replace (x ++ TResume v :: l ++ TSusp c to :: wtrace s0) with ((x ++ TResume v :: l) ++ TSusp c to :: wtrace s0) in Hg
    by (by rewrite <- app_assoc).
  apply app_inv_tail in Hg. apply (Hq (TResume v)). rewrite Hg. apply elem_of_app. right. left.
Qed.

(** While waiting. *)
Lemma await_waits denv m (c : src) to k (s0 s : wstate) l : wco s0 = CRun (WAwait m c to k) -> wubs s0 = None -> clean s0 -> noleak s0 ->
  (is_dev c -> walive s0 = true) -> (¬ is_dev c -> is_Some (whelp s0)) -> exec denv s0 s ->
  wtrace s = l ++ TSusp c to :: wtrace s0 -> quiet l -> wubs s = None ∧ phase m c to k s0 s l.
Proof.
  intros Hc Hu Hcl Hl Ha Hh Hx Ht Hq.
  destruct (await_exec denv _ _ _ _ s0 s Hc Hu Hcl Hl Ha Hh Hx) as [->|[[Hus [l' Hp]]|(l' & v & s2 & Hre & H1 & H2)]].
  - exfalso. apply (f_equal length) in Ht. rewrite app_length in Ht. cbn in Ht. lia.
  - split; [done|]. destruct (Hp) as [Hsi _]. pose proof (si_trace _ _ _ _ _ Hsi) as Ht'. rewrite Ht in Ht'. apply app_inv_tail in Ht'. by subst l'.
  - exfalso. by eapply not_resumed.
Qed.

(** ** After the destruction of the object it does not emit or change any more. *)
Definition silent (l : list tev) : Prop := ∀ e, e ∈ l -> match e with TEmit _ _ | TDev _ | TDestroy => False | _ => True end.
Definition dead (s : wstate) : Prop := walive s = false ∧ wtodo s = [].
Definition silent_ext (s s' : wstate) : Prop := dead s' ∧ ∃ l, wtrace s' = l ++ wtrace s ∧ silent l.

Lemma silent_ext_trans s s1 s2 : silent_ext s s1 -> silent_ext s1 s2 -> silent_ext s s2.
Proof.
  intros [_ (l & Ht & Hl)] [Hd (l' & Ht' & Hl')]. split; [done|]. exists (l' ++ l). split; [rewrite Ht', Ht; apply app_assoc|].
  intros e [?|?]%elem_of_app; [by apply Hl'|by apply Hl].
Qed.
Lemma silent_same (s s' : wstate) : dead s -> walive s' = walive s -> wtodo s' = wtodo s -> wtrace s' = wtrace s -> silent_ext s s'.
Proof. intros [Ha Ht] H1 H2 H3. split; [split; congruence|]. exists []. split; [done|]. by intros ? ?%elem_of_nil. Qed.
Lemma silent_log (s s' : wstate) e : dead s -> walive s' = walive s -> wtodo s' = wtodo s -> wtrace s' = e :: wtrace s ->
  match e with TEmit _ _ | TDev _ | TDestroy => False | _ => True end -> silent_ext s s'.
Proof. intros [Ha Ht] H1 H2 H3 He. split; [split; congruence|]. exists [e]. split; [done|]. by intros x ->%elem_of_list_singleton. Qed.

Lemma resume_same (s : wstate) : walive (resume s) = walive s ∧ wtodo (resume s) = wtodo s ∧ wtrace (resume s) = wtrace s.
Proof. unfold resume. by destruct (wco s). Qed.
Lemma trigger_same a p (s : wstate) : walive (trigger a p s) = walive s ∧ wtodo (trigger a p s) = wtodo s ∧ wtrace (trigger a p s) = wtrace s.
Proof.
  unfold trigger. destruct (amode a); try done.
  destruct (resume_same (set_aw (Some (Awaiter (aid a) (asrc a) MDirect false (atimer a) (actx a) (Some p))) s)) as (-> & -> & ->). done.
Qed.
Lemma silent_ready sg p (s : wstate) : dead s -> silent_ext s (ready sg p s).
Proof.
  intros Hd. unfold ready. destruct (whelp s) as [[[i h] live]|]; [|by apply silent_same]. set (s1 := wlog _ _).
  assert (Hs : silent_ext s s1) by (by eapply silent_log). destruct (waw s1) as [a|]; [|done]. destruct (asrc a); [done|]. destruct (aconn a); [|done].
  eapply silent_ext_trans; [exact Hs|]. destruct (trigger_same a p s1) as (? & ? & ?). apply silent_same; try done; apply Hs.
Qed.

Lemma dead_step (s s' : wstate) : dead s -> step s = Next s' -> silent_ext s s'.
Proof.
  intros Hd. unfold step. destruct (wubs s); [done|]. pose proof Hd as [Ha Ht]. rewrite Ht, Ha. destruct (wco s) as [p|k|k|a]; [|done| |done].
  - intros [= <-]. destruct p; try (by apply silent_same); try (by eapply silent_log).
    + destruct (whelp s); by apply silent_same.
    + unfold drop_helper. cbn. destruct (whelp s) as [[[??]?]|]; by apply silent_same.
    + unfold await. rewrite Ha. destruct c; [by eapply silent_log|]. destruct (whelp s); [by eapply silent_log|by apply silent_same].
  - intros [= <-]. unfold drop_awaiter. destruct (waw s); by eapply silent_log.
Qed.
Lemma dead_env e (s s' : wstate) : dead s -> env_step e s = Next s' -> silent_ext s s'.
Proof.
  intros Hd. pose proof Hd as [Ha Ht]. destruct e; cbn; rewrite ?Ha; try done.
  - destruct (wposted s) as [|[i p|i sg p] q]; [done|..].
    + destruct (waw s) as [a|]; [destruct (decide _)|]; intros [= <-]; try (by apply silent_same).
      unfold resume. cbn. destruct (wco s); by apply silent_same.
    + destruct (whelp s) as [[[j h] live]|]; [destruct (decide _)|]; intros [= <-]; try (by apply silent_same).
      eapply silent_ext_trans; [by apply (silent_same s (set_posted q s))|]. by apply silent_ready.
  - destruct (wshots s); [done|]. intros [= <-]. unfold resume. cbn. destruct (wco s); by apply silent_same.
  - destruct (waw s) as [a|]; [|done]. destruct (atimer a); [|done]. destruct (decide _); [|done]. intros [= <-]. destruct (actx a); [|by eapply silent_log].
    unfold resume. cbn. destruct (wco s); by eapply silent_log.
  - intros [= <-]. by eapply silent_log.
Qed.
Lemma dead_exec denv (s s' : wstate) : exec denv s s' -> dead s -> silent_ext s s'.
Proof.
  induction 1 as [s|s0 s s' H IH Hs|s0 s e s' H IH Hi Hu He Hdn]; intros Hd.
  - by apply silent_same.
  - specialize (IH Hd). eapply silent_ext_trans; [done|]. apply dead_step; [apply IH|done].
  - specialize (IH Hd). eapply silent_ext_trans; [done|]. eapply dead_env; [apply IH|done].
Qed.

Lemma silent_emissions m (l : list tev) : silent l -> emissions (FromDev m) l = [].
Proof.
  induction l as [|e l IH]; intros H; [done|]. rewrite emissions_cons, IH by (intros x ?; apply H; by right).
  specialize (H e (elem_of_list_here _ _)). by destruct e.
Qed.
Lemma emissions_app (c : src) (l1 l2 : list tev) : emissions c (l1 ++ l2) = emissions c l2 ++ emissions c l1.
Proof. unfold emissions. by rewrite reverse_app, omap_app. Qed.

(** Waiting for a signal of a destroyed object that has not emitted it before: for ever, with or without a timeout. *)
Lemma phase_dead denv m mm to k (s0 s s' : wstate) l : phase m (FromDev mm) to k s0 s l -> wco s = CSusp k -> wubs s = None -> noleak s0 ->
  TDestroy ∈ l -> emissions (FromDev mm) l = [] -> exec denv s s' ->
  wubs s' = None ∧ wco s' = CSusp k ∧ ∃ l', wtrace s' = l' ++ wtrace s ∧ quiet l'.
Proof.
  intros Hp Hc Hu Hlk Hd He Hx.
  assert (Hdead : dead s).
  { destruct Hp as [Hsi _]. pose proof (si_dead _ _ _ _ _ Hsi Hd) as Ha. split; [done|]. by apply (si_todo _ _ _ _ _ Hsi). }
  assert (Hno : ∀ l' s2, silent l' -> awaited (FromDev mm) (match m with MQueued => to | _ => None end) (l' ++ l) s2 -> False).
  { intros l' [p|] Hl.
    - intros [Hh _]. rewrite emissions_app, He, silent_emissions in Hh by done. done.
    - intros (n & l'' & _ & E & _ & _ & Hn). apply Hn. destruct l' as [|x l']; cbn in E; [|injection E as -> <-; apply elem_of_app; by right].
      rewrite E in Hd. apply elem_of_cons in Hd as [?|?]; done. }
  destruct (phase_exec denv _ _ _ _ _ _ _ _ Hp Hu Hlk Hx) as [[Hus' [l' Hp']]|(l' & v & s2 & Hr & Hx1 & Hx2)].
  - split; [done|]. destruct (dead_exec _ _ _ Hx Hdead) as [_ (x & Hxt & Hxs)].
    pose proof Hp' as [Hsi' [a [[Hco _]|[Hco Hba]]]].
    + split; [done|]. exists l'. split.
      * rewrite (si_trace _ _ _ _ _ Hsi'). destruct Hp as [Hsi _]. rewrite (si_trace _ _ _ _ _ Hsi). by rewrite <- app_assoc.
      * intros e Hin. apply (si_quiet _ _ _ _ _ Hsi'). apply elem_of_app. by left.
    + exfalso. assert (x = l') as ->.
      { destruct Hp as [Hsi _]. rewrite (si_trace _ _ _ _ _ Hsi'), (si_trace _ _ _ _ _ Hsi) in Hxt. rewrite <- app_assoc in Hxt. symmetry. by apply app_inv_tail in Hxt. }
      eapply Hno; [exact Hxs|apply Hba].
  - exfalso. destruct (dead_exec _ _ _ Hx1 Hdead) as [_ (x & Hxt & Hxs)].
    assert (x = TResume v :: l') as ->.
    { destruct Hp as [Hsi _]. rewrite (re_trace _ _ _ _ _ _ _ _ Hr), (si_trace _ _ _ _ _ Hsi) in Hxt. rewrite <- app_assoc in Hxt. 
      change (TResume v :: l' ++ l ++ TSusp (FromDev mm) to :: wtrace s0) with ((TResume v :: l') ++ (l ++ TSusp (FromDev mm) to :: wtrace s0)) in Hxt.
      symmetry. by apply app_inv_tail in Hxt. }
    eapply (Hno l'); [intros e Hin; apply Hxs; by right|apply Hr].
Qed.
End trace.
