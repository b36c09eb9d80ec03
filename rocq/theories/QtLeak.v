(** * Connections without a context object outlive the helper object: facts for PropsServer.v. *)
From stdpp Require Import list.
From Coq Require Import ZArith.
From Verif Require Import QtModel QtSpec QtInv QtAwait QtReach QtWrap QtTrace QtBehave QtCall QtLife.

Section leak.
Context {D S P O A : Type}.
Notation wstate := (@wstate D S P O A).
Notation tev := (@tev D S P O A).
Context (h : @helper D S P) (sg0 : S).
Context (Hkeep : ∀ x, keeps h x sg0 = true) (Hleak : leaky h sg0 = true).

(** A slot of a destroyed helper is connected to the signal; or the helper exists and its slot is. *)
Definition stale (s : wstate) : Prop := existsb (λ f, f sg0) (wleak s) = true.
Definition armed (s : wstate) : Prop := stale s ∨ ∃ i live, whelp s = Some (i, h, live) ∧ live sg0 = true.
Definition emits0 (l : list tev) : Prop := ∃ p, TEmit sg0 p ∈ l.

Record stays (s s' : wstate) (l : list tev) : Prop := {
  st_tr : wtrace s' = l ++ wtrace s;
  st_dest : TDestroy ∉ l;
  st_armed : armed s -> armed s';
  st_stale : stale s -> stale s';
  st_ub : wubs s ≠ None -> wubs s' ≠ None;
  st_emit : stale s -> emits0 l -> wubs s' ≠ None }.
Definition st s s' := ∃ l, stays s s' l.

Lemma st_trans s s1 s2 : st s s1 -> st s1 s2 -> st s s2.
Proof.
  intros [l []] [l' []]. exists (l' ++ l). split; auto.
  - rewrite st_tr1, st_tr0. apply app_assoc.
  - by intros [?|?]%elem_of_app.
  - intros Hs [p [Hp|Hp]%elem_of_app]; [apply st_emit1; [auto|by exists p]|apply st_ub1, st_emit0; [done|by exists p]].
Qed.
Lemma st_gen (s s' : wstate) l : wtrace s' = l ++ wtrace s -> (∀ e, e ∈ l -> match e with TEmit _ _ | TDestroy => False | _ => True end) ->
  wleak s' = wleak s -> (whelp s' = whelp s) -> (wubs s ≠ None -> wubs s' ≠ None) -> st s s'.
Proof.
  intros Ht Hl Hk Hh Hu. exists l. split; try done.
  - intros H. apply (Hl _ H).
  - unfold armed, stale. by rewrite Hk, Hh.
  - unfold stale. by rewrite Hk.
  - intros _ [p Hp]. destruct (Hl _ Hp).
Qed.
Lemma st_same (s s' : wstate) : wtrace s' = wtrace s -> wleak s' = wleak s -> whelp s' = whelp s -> (wubs s ≠ None -> wubs s' ≠ None) -> st s s'.
Proof. intros. apply (st_gen s s' []); try done. by intros e ?%elem_of_nil. Qed.
Lemma st_log (s s' : wstate) e : wtrace s' = e :: wtrace s -> match e with TEmit _ _ | TDestroy => False | _ => True end ->
  wleak s' = wleak s -> whelp s' = whelp s -> (wubs s ≠ None -> wubs s' ≠ None) -> st s s'.
Proof. intros. apply (st_gen s s' [e]); try done. by intros e' ->%elem_of_list_singleton. Qed.
Lemma st_refl s : st s s. Proof. by apply st_same. Qed.
Lemma st_resume (s : wstate) : st s (resume s).
Proof. unfold resume. destruct (wco s); by apply st_same. Qed.
Lemma st_trigger a p (s : wstate) : st s (trigger a p s).
Proof.
  unfold trigger. destruct (amode a); try (by apply st_same). eapply st_trans; [|apply st_resume]. by apply st_same.
Qed.
Lemma st_ready sg p (s : wstate) : st s (ready sg p s).
Proof.
  unfold ready. destruct (whelp s) as [[[i h'] live]|] eqn:E; [|by apply st_same]. set (s1 := wlog _ _).
  assert (H1 : st s s1).
  { exists [TReady p]. split; try done.
    - by intros ?%elem_of_list_singleton.
    - intros [?|(j & live' & E' & Hl)]; [by left|]. rewrite E in E'. injection E' as <- -> <-. right. eexists _, _. split; [reflexivity|]. cbn. by rewrite Hl, Hkeep.
    - intros _ [q Hq%elem_of_list_singleton]. done. }
  destruct (waw s1) as [a|]; [|done]. destruct (asrc a); [done|]. destruct (aconn a); [|done].
  eapply st_trans; [done|]. apply st_trigger.
Qed.
Lemma st_emit_one sg p (s : wstate) : st s (emit sg p s).
Proof.
  unfold emit. set (s1 := wlog _ _). destruct (existsb (λ f, f sg) (wleak s)) eqn:E.
  { exists [TEmit sg p]. split; try done. by intros ?%elem_of_list_singleton. }
  assert (H1 : st s s1).
  { exists [TEmit sg p]. split; try done; [by intros ?%elem_of_list_singleton|]. intros Hs [q Hq%elem_of_list_singleton]. injection Hq as <- _. unfold stale in Hs. by rewrite Hs in E. }
  set (s2 := helper_slot _ _ _).
  assert (H2 : st s s2).
  { eapply st_trans; [exact H1|]. unfold s2, helper_slot. clearbody s1. destruct (whelp s1) as [[[i h'] live]|]; [|apply st_refl]. destruct (live sg); [|apply st_refl].
    destruct (relay h' sg p (wdev s1)) as [[[[|] q] [d|]]|]; try apply st_refl; try (by apply st_same); try apply st_ready.
    eapply st_trans; [|apply st_ready]. by eapply st_log. }
  clearbody s2. destruct (waw s2) as [a|]; [|done]. destruct (asrc a) as [m|]; [|done]. destruct (aconn a); [|done]. destruct (m sg p); [|done].
  eapply st_trans; [done|]. apply st_trigger.
Qed.
Lemma st_emits ems : ∀ s : wstate, st s (foldl (λ s e, emit (fst e) (snd e) s) s ems).
Proof. induction ems as [|[sg p] ems IH]; intros s; [apply st_refl|]. cbn. eapply st_trans; [apply st_emit_one|apply IH]. Qed.
Lemma st_step (s s' : wstate) : step s = Next s' -> st s s'.
Proof.
  unfold step. destruct (wubs s) eqn:Hu; [done|]. destruct (wco s) as [p|k|k|a].
  - intros [= <-]. destruct p; try (by apply st_same); try (by eapply st_log).
    + destruct (walive s) eqn:E; by apply st_same.
    + destruct (walive s) eqn:E; [|by apply st_same]. eapply st_trans; [|apply st_emits]. by eapply st_log.
    + destruct (whelp s) eqn:Eh; [by apply st_same|]. destruct (walive s) eqn:E; [|by apply st_same].
      exists []. split; try done; [by intros ?%elem_of_nil|..].
      * intros [?|(i & live & E' & _)]; [by left|congruence].
      * by intros _ [? ?%elem_of_nil].
    + unfold drop_helper. cbn. destruct (whelp s) as [[[i h'] live]|] eqn:Eh; [|by apply st_same].
      exists []. split; try done; [by intros ?%elem_of_nil|..].
      * intros [Hs|(j & live' & E' & Hl)]; left; unfold stale in *; cbn; [by rewrite Hs, orb_true_r|]. rewrite Eh in E'. injection E' as <- -> <-. by rewrite Hl, Hleak.
      * unfold stale. cbn. intros ->. by rewrite orb_true_r.
      * by intros _ [? ?%elem_of_nil].
    + unfold await. destruct c; [destruct (walive s) eqn:E|destruct (whelp s) eqn:Eh]; try (by eapply st_log). by apply st_same.
  - destruct (wtodo s) as [|[sg p] q]; [done|]. intros [= <-]. eapply st_trans; [|apply st_emit_one]. by apply st_same.
  - intros [= <-]. unfold drop_awaiter. destruct (waw s); by eapply st_log.
  - destruct (wtodo s) as [|[sg p] q]; [done|]. intros [= <-]. eapply st_trans; [|apply st_emit_one]. by apply st_same.
Qed.
Lemma st_env e (s s' : wstate) : e ≠ EvDestroy -> env_step e s = Next s' -> st s s'.
Proof.
  destruct e; cbn; intros Hne; try done.
  - destruct (walive s); [|done]. intros [= <-]. by eapply st_log.
  - destruct (wposted s) as [|[i p|i sg p] q]; [done|..].
    + destruct (waw s) as [a|]; [destruct (decide _)|]; intros [= <-]; try (by apply st_same). eapply st_trans; [|apply st_resume]. by apply st_same.
    + destruct (whelp s) as [[[j h'] live]|] eqn:Eh; [destruct (decide _)|]; intros [= <-]; try (by apply st_same). eapply st_trans; [|apply st_ready]. by apply st_same.
  - destruct (wshots s); [done|]. intros [= <-]. eapply st_trans; [|apply st_resume]. by apply st_same.
  - destruct (waw s) as [a|]; [|done]. destruct (atimer a); [|done]. destruct (decide _); [|done]. intros [= <-]. destruct (actx a); [|by eapply st_log].
    eapply st_trans; [|apply st_resume]. by eapply st_log.
  - intros [= <-]. by eapply st_log.
Qed.

(** As long as the object exists ... *)
Lemma armed_exec denv (s0 s : wstate) : exec denv s0 s -> ∀ l, wtrace s = l ++ wtrace s0 -> TDestroy ∉ l -> armed s0 -> armed s.
Proof.
  induction 1 as [s|s0 s s' H IH Hs|s0 s e s' H IH Hi Hu He Hd]; intros l Hl Hin Ha; [done|..]; destruct (exec_grows _ _ _ H) as [l1 Hl1].
  - destruct (st_step _ _ Hs) as [x []]. assert (l = x ++ l1) as -> by (apply (app_inv_tail (wtrace s0)); rewrite <- Hl, st_tr0, Hl1; apply app_assoc).
    apply st_armed0, (IH l1); try done. intros ?. apply Hin, elem_of_app. by right.
  - assert (Hne : e ≠ EvDestroy). { intros ->. cbn in He. destruct (walive s); [|done]. injection He as <-. cbn in Hl. rewrite Hl1, app_comm_cons in Hl. apply app_inv_tail in Hl as <-. apply Hin. by left. }
    destruct (st_env _ _ _ Hne He) as [x []]. assert (l = x ++ l1) as -> by (apply (app_inv_tail (wtrace s0)); rewrite <- Hl, st_tr0, Hl1; apply app_assoc).
    apply st_armed0, (IH l1); try done. intros ?. apply Hin, elem_of_app. by right.
Qed.
(** ... and once the helper is gone, the signal is undefined behaviour. *)
Lemma ub_stuck denv (s0 s : wstate) : exec denv s0 s -> wubs s0 ≠ None -> s = s0.
Proof.
  induction 1 as [s|s0 s s' H IH Hs|s0 s e s' H IH Hi Hu He Hd]; intros Hn; [done|..].
  - rewrite (IH Hn) in Hs. unfold step in Hs. by destruct (wubs s0).
  - rewrite (IH Hn) in Hu. done.
Qed.
Lemma stale_exec denv (s0 s : wstate) : exec denv s0 s -> stale s0 ->
  ∀ l, wtrace s = l ++ wtrace s0 -> (TDestroy ∉ l -> stale s) ∧ ∀ l1 p l2, l = l1 ++ TEmit sg0 p :: l2 -> TDestroy ∉ l2 -> wubs s ≠ None.
Proof.
  induction 1 as [s|s0 s s' H IH Hs|s0 s e s' H IH Hi Hu He Hd]; intros Ha l Hl.
  - assert (l = []) as -> by (by apply (app_inv_tail (wtrace s)); rewrite <- Hl). split; [done|]. intros [|??] ? ?; done.
  - destruct (exec_grows _ _ _ H) as [l0 Hl0]. destruct (IH Ha _ Hl0) as [IH1 IH2].
    destruct (st_step _ _ Hs) as [x []]. assert (l = x ++ l0) as -> by (apply (app_inv_tail (wtrace s0)); rewrite <- Hl, st_tr0, Hl0; apply app_assoc).
    split; [intros Hin; apply st_stale0, IH1; intros ?; apply Hin, elem_of_app; by right|].
    intros l1 p l2 E Hn. apply app_eq_app in E as (y & [[E1 E2]|[E1 E2]]).
    + destruct y as [|z y]; [cbn in E2; by apply st_ub0, (IH2 [] p l2)|]. injection E2 as <- E2. apply st_emit0.
      * apply IH1. intros ?. apply Hn. rewrite E2. apply elem_of_app. by right.
      * exists p. rewrite E1. apply elem_of_app. right. by left.
    + by apply st_ub0, (IH2 y p l2).
  - destruct (exec_grows _ _ _ H) as [l0 Hl0]. destruct (IH Ha _ Hl0) as [IH1 IH2].
    assert (Hdec : e = EvDestroy ∨ e ≠ EvDestroy) by (destruct e; auto; by right). destruct Hdec as [->|Hne].
    { cbn in He. destruct (walive s); [|done]. injection He as <-. cbn in Hl. rewrite Hl0, app_comm_cons in Hl. apply app_inv_tail in Hl as <-.
      split; [intros Hin; destruct Hin; by left|]. intros l1 p l2 E Hn. destruct l1 as [|z l1]; [done|]. injection E as <- E. cbn. exfalso. by apply (IH2 l1 p l2). }
    destruct (st_env _ _ _ Hne He) as [x []]. assert (l = x ++ l0) as -> by (apply (app_inv_tail (wtrace s0)); rewrite <- Hl, st_tr0, Hl0; apply app_assoc).
    split; [intros Hin; apply st_stale0, IH1; intros ?; apply Hin, elem_of_app; by right|].
    intros l1 p l2 E Hn. apply app_eq_app in E as (y & [[E1 E2]|[E1 E2]]).
    + destruct y as [|z y]; [cbn in E2; by apply st_ub0, (IH2 [] p l2)|]. injection E2 as <- E2. apply st_emit0.
      * apply IH1. intros ?. apply Hn. rewrite E2. apply elem_of_app. by right.
      * exists p. rewrite E1. apply elem_of_app. right. by left.
    + by apply st_ub0, (IH2 y p l2).
Qed.
End leak.

(** After the destruction of the object there is no connection of it left. *)
Section gone.
Context {D S P O A : Type}.
Notation wstate := (@wstate D S P O A).
Definition unlinked (s : wstate) : Prop :=
  (∀ sg, existsb (λ f, f sg) (wleak s) = false) ∧ ∀ i h live sg, whelp s = Some (i, h, live) -> live sg = false.
Definition gone (s : wstate) : Prop := walive s = false -> unlinked s.
Definition gg (s s' : wstate) : Prop := walive s' = walive s ∧ (unlinked s -> unlinked s').
Lemma gg_trans s s1 s2 : gg s s1 -> gg s1 s2 -> gg s s2. Proof. intros [] []. split; [congruence|auto]. Qed.
Lemma gg_same (s s' : wstate) : walive s' = walive s -> wleak s' = wleak s -> whelp s' = whelp s -> gg s s'.
Proof. intros ? Hk Hh. split; [done|]. unfold unlinked. by rewrite Hk, Hh. Qed.
Lemma gg_gone s s' : gg s s' -> gone s -> gone s'. Proof. intros [Ha H] Hg Hd. apply H, Hg. congruence. Qed.
Lemma gg_resume (s : wstate) : gg s (resume s). Proof. unfold resume. destruct (wco s); by apply gg_same. Qed.
Lemma gg_trigger a p (s : wstate) : gg s (trigger a p s).
Proof. unfold trigger. destruct (amode a); try (by apply gg_same). eapply gg_trans; [|apply gg_resume]. by apply gg_same. Qed.
Lemma gg_ready sg p (s : wstate) : gg s (ready sg p s).
Proof.
  unfold ready. destruct (whelp s) as [[[i h'] live]|] eqn:E; [|by apply gg_same]. set (s1 := wlog _ _).
  assert (H1 : gg s s1). { split; [done|]. intros [H1 H2]. split; [done|]. intros j h live' x [= <- <- <-]. by rewrite (H2 _ _ _ x E). }
  destruct (waw s1) as [a|]; [|done]. destruct (asrc a); [done|]. destruct (aconn a); [|done]. eapply gg_trans; [done|]. apply gg_trigger.
Qed.
Lemma gg_emit sg p (s : wstate) : gg s (emit sg p s).
Proof.
  unfold emit. set (s1 := wlog _ _). assert (H1 : gg s s1) by (by apply gg_same). destruct (existsb _ _); [exact H1|]. set (s2 := helper_slot _ _ _).
  assert (H2 : gg s s2).
  { eapply gg_trans; [exact H1|]. unfold s2, helper_slot. clearbody s1. destruct (whelp s1) as [[[i h'] live]|]; [|by apply gg_same]. destruct (live sg); [|by apply gg_same].
    destruct (relay h' sg p (wdev s1)) as [[[[|] q] [d|]]|]; try (by apply gg_same); try apply gg_ready.
    eapply gg_trans; [|apply gg_ready]. by apply gg_same. }
  clearbody s2. destruct (waw s2) as [a|]; [|done]. destruct (asrc a) as [m|]; [|done]. destruct (aconn a); [|done]. destruct (m sg p); [|done].
  eapply gg_trans; [done|]. apply gg_trigger.
Qed.
Lemma gg_emits ems : ∀ s : wstate, gg s (foldl (λ s e, emit (fst e) (snd e) s) s ems).
Proof. induction ems as [|[sg p] ems IH]; intros s; [by apply gg_same|]. cbn. eapply gg_trans; [apply gg_emit|apply IH]. Qed.
Lemma gone_step (s s' : wstate) : step s = Next s' -> gone s -> gone s'.
Proof.
  unfold step. destruct (wubs s) eqn:Hu; [done|]. destruct (wco s) as [p|k|k|a].
  - intros [= <-]. destruct p; try (by apply gg_gone, gg_same).
    + destruct (walive s) eqn:E; by apply gg_gone, gg_same.
    + destruct (walive s) eqn:E; [|by apply gg_gone, gg_same]. apply gg_gone. eapply gg_trans; [|apply gg_emits]. by apply gg_same.
    + destruct (whelp s) eqn:Eh; [by apply gg_gone, gg_same|]. destruct (walive s) eqn:E; [|by apply gg_gone, gg_same]. intros _ Ha. cbn in Ha. congruence.
    + unfold drop_helper. cbn. destruct (whelp s) as [[[i h'] live]|] eqn:Eh; [|by apply gg_gone, gg_same].
      intros Hg Ha. destruct (Hg Ha) as [H1 H2]. split; [|done]. intros sg. cbn. rewrite (H2 _ _ _ sg Eh). apply H1.
    + unfold await. destruct c; [destruct (walive s) eqn:E|destruct (whelp s) eqn:Eh]; by apply gg_gone, gg_same.
  - destruct (wtodo s) as [|[sg p] q]; [done|]. intros [= <-]. apply gg_gone. eapply gg_trans; [|apply gg_emit]. by apply gg_same.
  - intros [= <-]. unfold drop_awaiter. destruct (waw s); by apply gg_gone, gg_same.
  - destruct (wtodo s) as [|[sg p] q]; [done|]. intros [= <-]. apply gg_gone. eapply gg_trans; [|apply gg_emit]. by apply gg_same.
Qed.
Lemma gone_env e (s s' : wstate) : env_step e s = Next s' -> gone s -> gone s'.
Proof.
  destruct e; cbn.
  - destruct (walive s) eqn:E; [|done]. intros [= <-]. by apply gg_gone, gg_same.
  - destruct (walive s) eqn:E; [|done]. intros [= <-] _ _. split; [done|]. cbn. intros i h live sg. destruct (whelp s) as [[[??]?]|]; [|done]. by intros [= <- <- <-].
  - destruct (wposted s) as [|[i p|i sg p] q]; [done|..].
    + destruct (waw s) as [a|]; [destruct (decide _)|]; intros [= <-]; try (by apply gg_gone, gg_same). apply gg_gone. eapply gg_trans; [|apply gg_resume]. by apply gg_same.
    + destruct (whelp s) as [[[j h'] live]|] eqn:Eh; [destruct (decide _)|]; intros [= <-]; try (by apply gg_gone, gg_same). apply gg_gone. eapply gg_trans; [|apply gg_ready]. by apply gg_same.
  - destruct (wshots s); [done|]. intros [= <-]. apply gg_gone. eapply gg_trans; [|apply gg_resume]. by apply gg_same.
  - destruct (waw s) as [a|]; [|done]. destruct (atimer a); [|done]. destruct (decide _); [|done]. intros [= <-]. destruct (actx a); [|by apply gg_gone, gg_same].
    apply gg_gone. eapply gg_trans; [|apply gg_resume]. by apply gg_same.
  - intros [= <-]. by apply gg_gone, gg_same.
Qed.
Lemma gone_exec denv (s0 s : wstate) : exec denv s0 s -> gone s0 -> gone s.
Proof. induction 1; [done|..]; intros Hg; [eapply gone_step; eauto|eapply gone_env; eauto]. Qed.
End gone.
