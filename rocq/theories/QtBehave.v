(** * While a coroutine waits, the object changes only on its own. *)
From stdpp Require Import list.
From Verif Require Import QtModel QtSpec QtInv QtAwait QtReach QtWrap QtTrace.

Section behave.
Context {D S P O A : Type}.
Notation wstate := (@wstate D S P O A).
Notation wprog := (@wprog D S P O).
Notation tev := (@tev D S P O A).
Notation src := (@src S P).
#[local] Arguments slots : simpl never.
#[local] Arguments emissions : simpl never.

Definition nodev (s s' : wstate) : Prop := ∃ x, wtrace s' = x ++ wtrace s ∧ ∀ d, TDev d ∉ x.
Definition calm_help (x : option (nat * @helper D S P * (S -> bool))) : Prop := ∀ i h live, x = Some (i, h, live) -> calm h.
Lemma nodev_same (s s' : wstate) : wtrace s' = wtrace s -> nodev s s'.
Proof. intros E. exists []. split; [done|]. by intros ? ?%elem_of_nil. Qed.
Lemma nodev_log (s s' : wstate) e : wtrace s' = e :: wtrace s -> (∀ d, e ≠ TDev d) -> nodev s s'.
Proof. intros E H. exists [e]. split; [done|]. intros d [?|?%elem_of_nil]%elem_of_cons; [by eapply H|done]. Qed.
Lemma nodev_trans (s s1 s2 : wstate) : nodev s s1 -> nodev s1 s2 -> nodev s s2.
Proof.
  intros (x & Hx & Hn) (y & Hy & Hm). exists (y ++ x). split; [rewrite Hy, Hx; apply app_assoc|]. intros d [?|?]%elem_of_app; [by eapply Hm|by eapply Hn].
Qed.
Lemma nodev_resume (s s' : wstate) : nodev s s' -> nodev s (resume s').
Proof. intros H. eapply nodev_trans; [exact H|]. apply nodev_same. unfold resume. by destruct (wco s'). Qed.
Lemma nodev_trigger a p (s s' : wstate) : nodev s s' -> nodev s (trigger a p s').
Proof.
  intros H. unfold trigger. destruct (amode a); [|apply nodev_resume|]; (eapply nodev_trans; [exact H|]); by apply nodev_same.
Qed.
Lemma nodev_ready sg p (s s' : wstate) : nodev s s' -> nodev s (ready sg p s').
Proof.
  intros H. eapply nodev_trans; [exact H|]. unfold ready. destruct (whelp s') as [[[i h] live]|]; [|by apply nodev_same].
  set (s1 := wlog _ _). assert (nodev s' s1) by (eapply nodev_log; [done|]; done).
  destruct (waw s1) as [a|]; [|done]. destruct (asrc a); [done|]. destruct (aconn a); [by apply nodev_trigger|done].
Qed.
Lemma nodev_emit sg p (s : wstate) : calm_help (whelp s) -> nodev s (emit sg p s).
Proof.
  intros Hc. unfold emit. set (s1 := wlog (TEmit sg p) s). assert (H1 : nodev s s1) by (eapply nodev_log; done).
  destruct (existsb _ _); [eapply nodev_trans; [exact H1|]; by apply nodev_same|].
  assert (H2 : nodev s (helper_slot sg p s1)).
  { unfold helper_slot. change (whelp s1) with (whelp s). destruct (whelp s) as [[[i h] live]|] eqn:E; [|done]. destruct (live sg); [|done].
    destruct (relay h sg p (wdev s1)) as [[[[|] p'] [d'|]]|] eqn:Er; try done.
    - exfalso. eapply (Hc _ _ _ eq_refl). exact Er.
    - by apply nodev_ready. }
  destruct (waw (helper_slot sg p s1)) as [a|]; [|done]. destruct (asrc a) as [m|]; [|done]. destruct (aconn a); [|done]. destruct (m sg p); [by apply nodev_trigger|done].
Qed.
Lemma nodev_env e (s s' : wstate) : env_step e s = Next s' -> nodev s s' ∨ ∃ d ems, e = EvDev d ems ∧ wtrace s' = TDev d :: wtrace s.
Proof.
  destruct e as [d ems| | | | |]; unfold env_step; cbv zeta.
  - destruct (walive s); [|done]. intros [= <-]. right. eauto.
  - destruct (walive s); [|done]. intros [= <-]. left. by eapply nodev_log.
  - destruct (wposted s) as [|[i p|i sg p] q]; [done|..].
    + destruct (waw (set_posted q s)) as [a|]; [case_decide|]; intros [= <-]; left; [apply nodev_resume|..]; by apply nodev_same.
    + change (whelp (set_posted q s)) with (whelp s). destruct (whelp s) as [[[j h] live]|]; [case_decide|]; intros [= <-]; left; [apply nodev_ready|..]; by apply nodev_same.
  - destruct (wshots s) as [|n]; [done|]. intros [= <-]. left. apply nodev_resume. by apply nodev_same.
  - destruct (waw s) as [a|]; [|done]. destruct (atimer a) as [n|]; [|done]. case_decide; [|done]. intros [= <-]. left.
    destruct (actx a); [apply nodev_resume|]; by eapply nodev_log.
  - intros [= <-]. left. by eapply nodev_log.
Qed.

Lemma behaves_nil denv (d : D) : behaves denv d ([] : list tev).
Proof. intros l1 d' l2 E. by destruct l1. Qed.
Lemma behaves_app denv (d : D) (l l' : list tev) : behaves denv (dev_after d l) l' -> behaves denv d l -> behaves denv d (l' ++ l).
Proof.
  intros H' H. revert H'. induction l' as [|e l' IH]; intros H' l1 d' l2 E; [by apply (H l1)|]. destruct l1 as [|e1 l1]; cbn in E.
  - injection E as -> <-. destruct (H' [] d' l' eq_refl) as [ems He]. exists ems. by rewrite dev_after_app.
  - injection E as <- E. eapply IH; [|exact E]. intros m1 d1 m2 ->. by apply (H' (e :: m1)).
Qed.
Lemma behaves_nodev denv (d : D) (l : list tev) : (∀ d', TDev d' ∉ l) -> behaves denv d l.
Proof. intros H l1 d' l2 ->. exfalso. apply (H d'). apply elem_of_app. right. left. Qed.
Lemma behaves_sub denv (d : D) (l l' : list tev) : behaves denv d (l' ++ l) -> behaves denv d l.
Proof. intros H l1 d' l2 ->. apply (H (l' ++ l1)). by rewrite <- app_assoc. Qed.

Lemma phase_behaves denv m (c : src) to k (s0 s1 s : wstate) : calm_help (whelp s0) -> phase m c to k s0 s1 [] -> wubs s1 = None -> noleak s0 -> exec denv s1 s ->
  (wubs s = None ∧ ∃ l, phase m c to k s0 s l ∧ behaves denv (wdev s0) l) ∨
  ∃ l v s2, resumed m c to k s0 s2 l v ∧ behaves denv (wdev s0) l ∧ exec denv s2 s.
Proof.
  intros Hc Hph Hub Hlk Hex. induction Hex as [s1|s1 s s' Hex IH Hst|s1 s e s' Hex IH Hid Hu He Hd].
  - left. split; [done|]. exists []. split; [done|apply behaves_nil].
  - destruct (IH Hph Hub) as [[Hu (l & Hp & Hb)]|(l & v & s2 & ? & ? & ?)]; cycle 1.
    { right. exists l, v, s2. split; [done|]. split; [done|]. by eapply exec_step. }
    destruct (phase_step _ _ _ _ _ _ _ _ Hp Hu Hst) as [(_ & sg & Hlx)|[(Hu' & l'' & Hp')|[v Hr]]].
    + exfalso. destruct Hp as [Hsi _]. destruct (si_leak _ _ _ _ _ Hsi) as [E|E]; rewrite E in Hlx; [rewrite Hlk in Hlx|]; done.
    + left. split; [done|]. exists (l'' ++ l). split; [done|]. apply behaves_app; [|done]. apply behaves_nodev. destruct Hp as [Hsi [a [[Hco Hwa]|[Hco Hba]]]]; cycle 1.
      { exfalso. unfold step in Hst. rewrite Hu, Hco in Hst. injection Hst as <-. destruct Hp' as [_ [? [[E _]|[E _]]]]; cbn in E; by destruct (waw s). }
      unfold step in Hst. rewrite Hu, Hco in Hst. destruct (wtodo s) as [|[sg p] q] eqn:Et; [done|]. injection Hst as <-.
      destruct (nodev_emit sg p (set_todo q s)) as (x & Hx & Hn).
      { intros i h live E. cbn in E. pose proof (si_help _ _ _ _ _ Hsi) as Hs. rewrite E in Hs. destruct (whelp s0) as [[[i0 h0] l0]|] eqn:E0; [|done]. destruct Hs as [_ <-]. by eapply Hc. }
      destruct Hp' as [Hsi' _]. rewrite (si_trace _ _ _ _ _ Hsi') in Hx. change (wtrace (set_todo q s)) with (wtrace s) in Hx. rewrite (si_trace _ _ _ _ _ Hsi), <- app_assoc in Hx.
      apply app_inv_tail in Hx as <-. done.
    + right. exists l, v, s'. split; [done|]. split; [done|constructor].
  - destruct (IH Hph Hub) as [[Hu' (l & Hp & Hb)]|(l & v & s2 & ? & ? & ?)]; cycle 1.
    { right. exists l, v, s2. split; [done|]. split; [done|]. by eapply exec_env. }
    destruct (phase_env _ _ _ _ _ _ _ _ _ Hp Hu' Hid He) as (? & l'' & Hp').
    left. split; [done|]. exists (l'' ++ l). split; [done|]. apply behaves_app; [|done].
    destruct Hp as [Hsi _], Hp' as [Hsi' _]. pose proof (si_trace _ _ _ _ _ Hsi') as Ht'. rewrite <- app_assoc in Ht'. rewrite <- (si_trace _ _ _ _ _ Hsi) in Ht'.
    destruct (nodev_env _ _ _ He) as [(x & Hx & Hn)|(d & ems & -> & Hx)].
    + rewrite Hx in Ht'. apply app_inv_tail in Ht' as ->. by apply behaves_nodev.
    + rewrite Hx in Ht'. change (TDev d :: wtrace s) with ([TDev d] ++ wtrace s) in Ht'. apply app_inv_tail in Ht' as <-. intros l1 d' l2 E. destruct l1 as [|? [|]]; try done. injection E as -> <-.
      exists ems. cbn. rewrite <- (si_dev _ _ _ _ _ Hsi). done.
Qed.

Lemma resumed_behaves denv m (c : src) to k (s0 s1 s : wstate) l v : calm_help (whelp s0) -> phase m c to k s0 s1 [] -> wubs s1 = None -> noleak s0 -> exec denv s1 s ->
  resumed m c to k s0 s l v -> behaves denv (wdev s0) l.
Proof.
  intros Hc Hp Hu Hl Hx Hr. destruct (phase_behaves denv m c to k s0 s1 s Hc Hp Hu Hl Hx) as [(_ & l' & Hp' & _)|(l' & v' & s2 & Hr2 & Hb & Hx2)].
  - exfalso. pose proof (re_co _ _ _ _ _ _ _ _ Hr) as E. destruct Hp' as [_ [a [[E' _]|[E' _]]]]; congruence.
  - destruct (exec_grows _ _ _ Hx2) as [x Hg]. rewrite (re_trace _ _ _ _ _ _ _ _ Hr), (re_trace _ _ _ _ _ _ _ _ Hr2) in Hg.
    destruct x as [|e x]; cbn in Hg.
    + injection Hg as _ Hg. apply app_inv_tail in Hg as ->. done.
    + exfalso. injection Hg as _ Hg. assert (E : l = x ++ TResume v' :: l') by (apply (app_inv_tail (TSusp c to :: wtrace s0)); rewrite <- app_assoc; done).
      apply (re_quiet _ _ _ _ _ _ _ _ Hr (TResume v')). rewrite E. apply elem_of_app. right. left.
Qed.


(** ** The object's emissions *)
Definition noplay (l : list tev) : Prop := Forall (λ e, match e with TDev _ | TEmit _ _ => False | _ => True end) l.
Definition still (s s' : wstate) : Prop := (∃ x, wtrace s' = x ++ wtrace s ∧ noplay x) ∧ wtodo s' = wtodo s.
Lemma still_same (s s' : wstate) : wtrace s' = wtrace s -> wtodo s' = wtodo s -> still s s'.
Proof. intros E ?. split; [|done]. exists []. split; [done|constructor]. Qed.
Lemma still_log (s s' : wstate) e : wtrace s' = e :: wtrace s -> wtodo s' = wtodo s -> (match e with TDev _ | TEmit _ _ => False | _ => True end) -> still s s'.
Proof. intros E ? H. split; [|done]. exists [e]. split; [done|]. constructor; [done|constructor]. Qed.
Lemma still_trans (s s1 s2 : wstate) : still s s1 -> still s1 s2 -> still s s2.
Proof.
  intros [(x & Hx & Hn) E1] [(y & Hy & Hm) E2]. split; [|congruence]. exists (y ++ x). split; [rewrite Hy, Hx; apply app_assoc|]. by apply Forall_app.
Qed.
Lemma still_resume (s s' : wstate) : still s s' -> still s (resume s').
Proof. intros H. eapply still_trans; [exact H|]. apply still_same; unfold resume; by destruct (wco s'). Qed.
Lemma still_trigger a p (s s' : wstate) : still s s' -> still s (trigger a p s').
Proof.
  intros H. unfold trigger. destruct (amode a); [|apply still_resume|]; (eapply still_trans; [exact H|]); by apply still_same.
Qed.
Lemma still_ready sg p (s s' : wstate) : still s s' -> still s (ready sg p s').
Proof.
  intros H. eapply still_trans; [exact H|]. unfold ready. destruct (whelp s') as [[[i h] live]|]; [|by apply still_same].
  set (s1 := wlog _ _). assert (still s' s1) by (by eapply still_log).
  destruct (waw s1) as [a|]; [|done]. destruct (asrc a); [done|]. destruct (aconn a); [by apply still_trigger|done].
Qed.
Lemma still_emit sg p (s : wstate) : calm_help (whelp s) -> still (wlog (TEmit sg p) s) (emit sg p s).
Proof.
  intros Hc. unfold emit. set (s1 := wlog (TEmit sg p) s). assert (H1 : still s1 s1) by (by apply still_same).
  destruct (existsb _ _); [by apply still_same|].
  assert (H2 : still s1 (helper_slot sg p s1)).
  { unfold helper_slot. change (whelp s1) with (whelp s). destruct (whelp s) as [[[i h] live]|] eqn:E; [|done]. destruct (live sg); [|done].
    destruct (relay h sg p (wdev s1)) as [[[[|] p'] [d'|]]|] eqn:Er; try done.
    - exfalso. eapply (Hc _ _ _ eq_refl). exact Er.
    - by apply still_ready. }
  destruct (waw (helper_slot sg p s1)) as [a|]; [|done]. destruct (asrc a) as [m|]; [|done]. destruct (aconn a); [|done]. destruct (m sg p); [by apply still_trigger|done].
Qed.
Lemma still_env e (s s' : wstate) : env_step e s = Next s' -> still s s' ∨ ∃ d ems, e = EvDev d ems ∧ wtrace s' = TDev d :: wtrace s ∧ wtodo s' = ems.
Proof.
  destruct e as [d ems| | | | |]; unfold env_step; cbv zeta.
  - destruct (walive s); [|done]. intros [= <-]. right. eauto.
  - destruct (walive s); [|done]. intros [= <-]. left. by eapply still_log.
  - destruct (wposted s) as [|[i p|i sg p] q]; [done|..].
    + destruct (waw (set_posted q s)) as [a|]; [case_decide|]; intros [= <-]; left; [apply still_resume|..]; by apply still_same.
    + change (whelp (set_posted q s)) with (whelp s). destruct (whelp s) as [[[j h] live]|]; [case_decide|]; intros [= <-]; left; [apply still_ready|..]; by apply still_same.
  - destruct (wshots s) as [|n]; [done|]. intros [= <-]. left. apply still_resume. by apply still_same.
  - destruct (waw s) as [a|]; [|done]. destruct (atimer a) as [n|]; [|done]. case_decide; [|done]. intros [= <-]. left.
    destruct (actx a); [apply still_resume|]; by eapply still_log.
  - intros [= <-]. left. by eapply still_log.
Qed.
Lemma plays_noplay denv (d : D) (x l : list tev) q : plays denv d l q -> noplay x -> plays denv d (x ++ l) q.
Proof. intros H. induction 1; [done|]. cbn. by apply plays_other. Qed.

Lemma queued_trigger a p (s : wstate) : amode a = MQueued -> wco (trigger a p s) = wco s ∧ waw (trigger a p s) = waw s.
Proof. intros E. unfold trigger. by rewrite E. Qed.
Lemma queued_ready sg p (s : wstate) : (∀ a, waw s = Some a -> amode a = MQueued) -> wco (ready sg p s) = wco s ∧ waw (ready sg p s) = waw s.
Proof.
  intros H. unfold ready. destruct (whelp s) as [[[i h] live]|]; [|done]. cbv zeta. cbn [waw wlog set_help]. destruct (waw s) as [a|] eqn:E; [|done].
  destruct (asrc a); [done|]. destruct (aconn a); [|done]. destruct (queued_trigger a p (wlog (TReady p) (set_help (Some (i, h, λ x, live x && keeps h sg x)) s)) (H _ eq_refl)) as [-> ->]. done.
Qed.
Lemma queued_emit sg p (s : wstate) : (∀ a, waw s = Some a -> amode a = MQueued) -> wco (emit sg p s) = wco s.
Proof.
  intros H. unfold emit. destruct (existsb _ _); [done|].
  assert (Hs : wco (helper_slot sg p (wlog (TEmit sg p) s)) = wco s ∧ waw (helper_slot sg p (wlog (TEmit sg p) s)) = waw s).
  { unfold helper_slot. change (whelp (wlog (TEmit sg p) s)) with (whelp s). destruct (whelp s) as [[[i h] live]|]; [|done]. destruct (live sg); [|done].
    destruct (relay h sg p _) as [[[[|] p'] [d'|]]|]; try done.
    - destruct (queued_ready sg p' (wlog (TDev d') (set_dev d' (wlog (TEmit sg p) s))) H) as [-> ->]. done.
    - destruct (queued_ready sg p' (wlog (TEmit sg p) s) H) as [-> ->]. done. }
  destruct Hs as [Hc Ha]. rewrite Ha. destruct (waw s) as [a|] eqn:E; [|done]. destruct (asrc a); [|done]. destruct (aconn a); [|done]. destruct (m sg p); [|done].
  destruct (queued_trigger a p0 (helper_slot sg p (wlog (TEmit sg p) s)) (H _ eq_refl)) as [-> _]. done.
Qed.

(** The history of a wait: what the object did on its own, all its signals being delivered in the end. *)
Definition hist denv (s0 s : wstate) (l : list tev) : Prop := behaves denv (wdev s0) l ∧ (wtodo s0 = [] -> plays denv (wdev s0) l [] ∧ wtodo s = []).
Lemma hist_refl denv (s0 : wstate) c : hist denv s0 (set_co c s0) [].
Proof. split; [apply behaves_nil|]. intros H. split; [constructor|done]. Qed.
Lemma plays_app denv (d : D) (l l' : list tev) q : plays denv d l [] -> plays denv (dev_after d l) l' q -> plays denv d (l' ++ l) q.
Proof. intros H. induction 1; cbn [app]; [done|apply plays_dev; [done|by rewrite dev_after_app]|by apply plays_emit|by apply plays_other]. Qed.
Lemma hist_app denv (s0 s1 s2 : wstate) (l l' : list tev) : wdev s1 = dev_after (wdev s0) l -> hist denv s0 s1 l -> hist denv s1 s2 l' -> hist denv s0 s2 (l' ++ l).
Proof.
  intros Hd [Hb Hp] [Hb' Hp']. rewrite Hd in *. split; [by apply behaves_app|]. intros Ht. destruct (Hp Ht) as [H1 H2]. destruct (Hp' H2) as [H3 H4]. split; [by apply plays_app|done].
Qed.
Lemma phase_plays denv (c : src) to k (s0 s1 s : wstate) : calm_help (whelp s0) -> phase MQueued c to k s0 s1 [] -> wubs s1 = None -> noleak s0 -> wtodo s1 = [] -> exec denv s1 s ->
  (∃ l, phase MQueued c to k s0 s l ∧ wubs s = None ∧ plays denv (wdev s0) l (wtodo s) ∧ (step s = Idle -> wtodo s = []) ∧ (∀ k', wco s = CBack k' -> wtodo s = [])) ∨
  ∃ l v s2, resumed MQueued c to k s0 s2 l v ∧ plays denv (wdev s0) l [] ∧ wtodo s2 = [] ∧ exec denv s2 s.
Proof.
  intros Hc Hph Hub Hlk Ht1 Hex. induction Hex as [s1|s1 s s' Hex IH Hst|s1 s e s' Hex IH Hid Hu He Hd].
  - left. exists []. rewrite Ht1. split; [done|]. split; [done|]. split; [constructor|done].
  - destruct (IH Hph Hub Ht1) as [(l & Hp & Hu & Hpl & _ & Hbk)|(l & v & s2 & ? & ? & ? & ?)]; cycle 1.
    { right. exists l, v, s2. split_and!; try done. by eapply exec_step. }
    destruct (phase_step _ _ _ _ _ _ _ _ Hp Hu Hst) as [(_ & sg & Hlx)|[(Hu' & l'' & Hp')|[v Hr]]].
    + exfalso. destruct Hp as [Hsi _]. destruct (si_leak _ _ _ _ _ Hsi) as [E|E]; rewrite E in Hlx; [rewrite Hlk in Hlx|]; done.
    + left. exists (l'' ++ l). split; [done|]. split; [done|].
      destruct Hp as [Hsi [a [[Hco Hwa]|[Hco Hba]]]]; cycle 1.
      { exfalso. unfold step in Hst. rewrite Hu, Hco in Hst. injection Hst as <-. destruct Hp' as [_ [? [[E _]|[E _]]]]; cbn in E; by destruct (waw s). }
      unfold step in Hst. rewrite Hu, Hco in Hst. destruct (wtodo s) as [|[sg p] q] eqn:Et; [done|]. injection Hst as <-.
      destruct (still_emit sg p (set_todo q s)) as [(x & Hx & Hn) Htd].
      { intros i h live E. cbn in E. pose proof (si_help _ _ _ _ _ Hsi) as Hs. rewrite E in Hs. destruct (whelp s0) as [[[i0 h0] l0]|] eqn:E0; [|done]. destruct Hs as [_ <-]. by eapply Hc. }
      pose proof Hp' as [Hsi' Hps']. rewrite (si_trace _ _ _ _ _ Hsi') in Hx. change (wtrace (wlog (TEmit sg p) (set_todo q s))) with (TEmit sg p :: wtrace s) in Hx.
      rewrite (si_trace _ _ _ _ _ Hsi) in Hx. rewrite <- app_assoc in Hx. change (TEmit sg p :: (l ++ TSusp c to :: wtrace s0)) with ([TEmit sg p] ++ (l ++ TSusp c to :: wtrace s0)) in Hx. rewrite (app_assoc x) in Hx.
      apply app_inv_tail in Hx as ->. rewrite Htd. change (wtodo (wlog (TEmit sg p) (set_todo q s))) with q. split_and!.
      * rewrite <- app_assoc. apply plays_noplay; [|done]. by apply plays_emit.
      * intros Hi. destruct Hps' as [a' [[Hco' _]|[Hco' _]]]; unfold step in Hi; rewrite Hu', Hco' in Hi; [|done]. rewrite Htd in Hi. cbn in Hi. destruct q as [|[??]?]; done.
      * intros k' Hk'. rewrite queued_emit in Hk'; [cbn in Hk'; congruence|]. intros a' Ha'. cbn in Ha'. destruct Hwa. congruence.
    + right. exists l, v, s'. split; [done|]. assert (wtodo s = []) as E.
      { destruct Hp as [Hsi [a [[Hco Hwa]|[Hco Hba]]]]; [|by eapply Hbk]. unfold step in Hst. rewrite Hu, Hco in Hst. destruct (wtodo s) as [|[sg p] q] eqn:Et; [done|].
        injection Hst as <-. exfalso. pose proof (re_co _ _ _ _ _ _ _ _ Hr) as Hk'. rewrite queued_emit in Hk'; [cbn in Hk'; congruence|]. intros a' Ha'. cbn in Ha'. destruct Hwa. congruence. }
      rewrite E in Hpl. split; [done|]. split; [|constructor].
      destruct Hp as [Hsi [a [[Hco Hwa]|[Hco Hba]]]]; unfold step in Hst; rewrite Hu, Hco in Hst; [by rewrite E in Hst|]. injection Hst as <-. unfold drop_awaiter. cbn. by destruct (waw s).
  - destruct (IH Hph Hub Ht1) as [(l & Hp & Hu' & Hpl & Hidle & Hbk)|(l & v & s2 & ? & ? & ? & ?)]; cycle 1.
    { right. exists l, v, s2. split_and!; try done. by eapply exec_env. }
    destruct (phase_env _ _ _ _ _ _ _ _ _ Hp Hu' Hid He) as (? & l'' & Hp').
    left. exists (l'' ++ l). split; [done|]. split; [done|]. specialize (Hidle Hid). rewrite Hidle in Hpl.
    pose proof Hp as [Hsi _]. pose proof Hp' as [Hsi' Hps']. pose proof (si_trace _ _ _ _ _ Hsi') as Ht'. rewrite <- app_assoc in Ht'. rewrite <- (si_trace _ _ _ _ _ Hsi) in Ht'.
    destruct (still_env _ _ _ He) as [[(x & Hx & Hn) Htd]|(d & ems & -> & Hx & Htd)].
    + rewrite Hx in Ht'. apply app_inv_tail in Ht' as ->. rewrite Htd, Hidle. split; [by apply plays_noplay|done].
    + rewrite Hx in Ht'. change (TDev d :: wtrace s) with ([TDev d] ++ wtrace s) in Ht'. apply app_inv_tail in Ht' as <-. rewrite Htd. split_and!.
      * cbn. apply plays_dev; [done|]. rewrite <- (si_dev _ _ _ _ _ Hsi). done.
      * intros Hi. destruct Hps' as [a' [[Hco' _]|[Hco' _]]]; unfold step in Hi; rewrite H, Hco' in Hi; [|done]. rewrite Htd in Hi. destruct ems as [|[??]?]; done.
      * intros k' Hk'. exfalso. cbn in He. destruct (walive s); [|done]. injection He as <-. cbn in Hk'. destruct Hp as [_ [a [[Hco _]|[Hco _]]]]; [congruence|]. unfold step in Hid. rewrite Hu', Hco in Hid. done.
Qed.

Lemma resume_todo (s : wstate) : wtodo (resume s) = wtodo s.
Proof. unfold resume. by destruct (wco s). Qed.
Lemma trigger_todo a p (s : wstate) : wtodo (trigger a p s) = wtodo s.
Proof. unfold trigger. destruct (amode a); [done|by rewrite resume_todo|done]. Qed.
Lemma ready_todo sg p (s : wstate) : wtodo (ready sg p s) = wtodo s.
Proof.
  unfold ready. destruct (whelp s) as [[[i h] live]|]; [|done]. cbv zeta. destruct (waw _) as [a|]; [|done]. destruct (asrc a); [done|]. destruct (aconn a); [|done]. by rewrite trigger_todo.
Qed.
Lemma emit_todo sg p (s : wstate) : wtodo (emit sg p s) = wtodo s.
Proof.
  unfold emit. destruct (existsb _ _); [done|]. cbv zeta.
  assert (Hs : wtodo (helper_slot sg p (wlog (TEmit sg p) s)) = wtodo s).
  { unfold helper_slot. destruct (whelp _) as [[[i h] live]|]; [|done]. destruct (live sg); [|done]. destruct (relay h sg p _) as [[[[|] p'] [d'|]]|]; try done; by rewrite ready_todo. }
  destruct (waw _) as [a|]; [|done]. destruct (asrc a); [|done]. destruct (aconn a); [|done]. destruct (m sg p); [|done]. by rewrite trigger_todo.
Qed.
Lemma emits_todo ems : ∀ s : wstate, wtodo (foldl (λ s e, emit (fst e) (snd e) s) s ems) = wtodo s.
Proof. induction ems as [|e ems IH]; intros s; [done|]. cbn [foldl]. by rewrite IH, emit_todo. Qed.
Lemma step_todo (s s' : wstate) : step s = Next s' -> wtodo s = [] -> wtodo s' = [].
Proof.
  unfold step. destruct (wubs s); [done|]. intros H Ht. destruct (wco s) as [p|k|k|a].
  - injection H as <-. destruct p; try done; cbn.
    + by destruct (walive s).
    + destruct (walive s); [by rewrite emits_todo|done].
    + destruct (whelp s); [done|by destruct (walive s)].
    + unfold drop_helper. cbn. by destruct (whelp s) as [[[??]?]|].
    + unfold await. destruct c; [by destruct (walive s)|by destruct (whelp s)].
  - rewrite Ht in H. done.
  - injection H as <-. unfold drop_awaiter. cbn. by destruct (waw s).
  - rewrite Ht in H. done.
Qed.
Lemma exec_todo denv (s0 s : wstate) : exec denv s0 s -> wtrace s = wtrace s0 -> wtodo s0 = [] -> wtodo s = [].
Proof.
  assert (Hg : ∀ s1 s2 : wstate, exec denv s1 s2 -> length (wtrace s1) ≤ length (wtrace s2)).
  { intros s1 s2 H. destruct (exec_grows _ _ _ H) as [x ->]. rewrite app_length. lia. }
  induction 1 as [s|s0 s s' Hx IH Hs|s0 s e s' Hx IH Hi Hu He Hd]; intros Ht H0; [done|..].
  - eapply step_todo; [exact Hs|]. apply IH; [|done]. assert (Hs1 : exec denv s s') by (eapply exec_step; [constructor|done]).
    destruct (exec_grows _ _ _ Hs1) as [x Ex], (exec_grows _ _ _ Hx) as [y Ey]. rewrite Ht, Ey in Ex. symmetry in Ex. rewrite app_assoc in Ex. apply (app_inv_tail (wtrace s0) _ []) in Ex. destruct x; [|done]. cbn in Ex. subst y. done.
  - assert (Hs1 : exec denv s s') by (eapply exec_env; [constructor|done..]).
    destruct (exec_grows _ _ _ Hs1) as [x Ex], (exec_grows _ _ _ Hx) as [y Ey]. rewrite Ht, Ey in Ex. symmetry in Ex. rewrite app_assoc in Ex. apply (app_inv_tail (wtrace s0) _ []) in Ex. destruct x; [|done]. cbn in Ex. subst y.
    destruct (still_env _ _ _ He) as [[_ ->]|(d & ems & _ & E & _)]; [by apply IH|]. exfalso. rewrite Ht, Ey in E. apply (f_equal length) in E. cbn in E. lia.
Qed.
Lemma resumed_hist denv (c : src) to k (s0 s1 s : wstate) l v : calm_help (whelp s0) -> phase MQueued c to k s0 s1 [] -> wubs s1 = None -> wtodo s1 = wtodo s0 -> noleak s0 -> exec denv s1 s ->
  resumed MQueued c to k s0 s l v -> hist denv s0 s l.
Proof.
  intros Hc Hp Hu Ht Hl Hx Hr. split; [by eapply resumed_behaves|]. intros Hq. rewrite <- Ht in Hq.
  destruct (phase_plays denv c to k s0 s1 s Hc Hp Hu Hl Hq Hx) as [(l' & Hp' & _)|(l' & v' & s2 & Hr2 & Hb & Ht2 & Hx2)].
  - exfalso. pose proof (re_co _ _ _ _ _ _ _ _ Hr) as E. destruct Hp' as [_ [a [[E' _]|[E' _]]]]; congruence.
  - destruct (exec_grows _ _ _ Hx2) as [x Hg]. rewrite (re_trace _ _ _ _ _ _ _ _ Hr), (re_trace _ _ _ _ _ _ _ _ Hr2) in Hg.
    destruct x as [|e x]; cbn in Hg.
    + injection Hg as Hv Hg. apply app_inv_tail in Hg as ->. split; [done|]. eapply exec_todo; [exact Hx2| |done]. rewrite (re_trace _ _ _ _ _ _ _ _ Hr), (re_trace _ _ _ _ _ _ _ _ Hr2). by rewrite Hv.
    + exfalso. injection Hg as _ Hg. assert (E : l = x ++ TResume v' :: l') by (apply (app_inv_tail (TSusp c to :: wtrace s0)); rewrite <- app_assoc; done).
      apply (re_quiet _ _ _ _ _ _ _ _ Hr (TResume v')). rewrite E. apply elem_of_app. right. left.
Qed.
End behave.
