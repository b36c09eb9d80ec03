(** * What QCoroWebSocketServer::nextPendingConnection() does with the connections of the server, exactly: C129.

    Vocabulary: QtModel.v, QtSpec.v, QtObj.v, QtNet.v (the code), QtNetSpec.v (clients: the connections that arrived). *)
From stdpp Require Import list.
From Coq Require Import ZArith.
From Verif Require Import QtModel QtSpec QtInv QtAwait QtReach QtWrap QtTrace QtBehave QtCall QtEnds QtCall2 QtEnds2 QtObj QtIO QtIOFacts QtNet QtNetSpec QtStuck QtNetFacts QtNetFacts2 QtNetFacts3 QtLife QtLeak PropsSignal PropsIO PropsNet PropsServer.

Section server.
Context {O A : Type}.
Notation wstate := (@wstate qobj sig arg O A).
Notation wprog := (@wprog qobj sig arg O A).
Notation tev := (@tev qobj sig arg O A).

(** For each newConnection emitted in [l] (newest first; server in state [d] before): the connection that was then the oldest pending one, if any. Oldest first. *)
Fixpoint announced (d : qobj) (l : list tev) : list nat :=
  match l with
  | [] => []
  | TEmit NewConnection _ :: l => announced d l ++ option_list (head (o_pending (dev_after d l)))
  | _ :: l => announced d l
  end.

Definition conserved (d : qobj) (l : list tev) : Prop := o_pending d ++ clients d l = announced d l ++ o_pending (dev_after d l).

Lemma conserved_log d e l : match e with TDev _ | TEmit NewConnection _ => False | _ => True end -> conserved d l -> conserved d (e :: l).
Proof. unfold conserved. destruct e as [|sg p| | | | | | | | |]; try done. by destruct sg. Qed.
Lemma conserved_own d d' l x : o_pending d' = o_pending (dev_after d l) ++ x -> conserved d l -> conserved d (TDev d' :: l).
Proof. unfold conserved. intros E H. cbn. rewrite app_assoc, H, E, <- app_assoc. f_equal. unfold fresh. by rewrite E, drop_app. Qed.
Lemma conserved_taken d a l : conserved d l -> conserved d (TDev (set_pending (tail (o_pending (dev_after d l))) (dev_after d l)) :: TEmit NewConnection a :: l).
Proof.
  unfold conserved. intros H. cbn. rewrite fresh_taken, app_nil_r, H, <- app_assoc. f_equal. by destruct (o_pending (dev_after d l)).
Qed.

(** A wait that goes on since [base] was logged, or that ended. *)
Definition waiting (d0 : qobj) (base : list tev) kk (s : wstate) : Prop := ∃ l, wtrace s = l ++ base ∧
  ((∃ v l1 l2, l = l1 ++ TResume v :: l2 ∧ conserved d0 l2) ∨
   ((wco s = CSusp kk ∨ wco s = CBack kk) ∧ wdev s = dev_after d0 l ∧ conserved d0 l ∧ noleak s ∧ (walive s = false -> wtodo s = []) ∧
    ∃ i live, whelp s = Some (i, server_helper, live) ∧ (walive s = true -> ∀ x, live x = true))).

(** What [trigger], [ready] and [resume] leave alone. *)
Definition alike (s s' : wstate) : Prop :=
  wtrace s' = wtrace s ∧ wdev s' = wdev s ∧ wleak s' = wleak s ∧ walive s' = walive s ∧ wtodo s' = wtodo s ∧ whelp s' = whelp s ∧ ∀ kk, wco s = CSusp kk ∨ wco s = CBack kk -> wco s' = CSusp kk ∨ wco s' = CBack kk.
Lemma alike_waiting d0 base kk s s' : alike s s' -> waiting d0 base kk s -> waiting d0 base kk s'.
Proof.
  intros (E1 & E2 & E3 & E4 & E5 & E6 & E7) (l & Ht & [?|(H1 & H2 & H3 & H4 & H5 & H6)]); exists l; (split; [congruence|]); [by left|right].
  split; [by apply E7|]. split; [congruence|]. split; [done|]. split; [unfold noleak; by rewrite E3|]. rewrite E4, E5, E6. done.
Qed.
Lemma alike_same (s s' : wstate) : wtrace s' = wtrace s -> wdev s' = wdev s -> wleak s' = wleak s -> walive s' = walive s -> wtodo s' = wtodo s -> whelp s' = whelp s -> wco s' = wco s -> alike s s'.
Proof. intros. unfold alike. split_and!; try done. by intros kk; rewrite H5. Qed.
Lemma alike_trans s s1 s2 : alike s s1 -> alike s1 s2 -> alike s s2.
Proof. intros (A1&A2&A3&A4&A5&A6&A7) (B1&B2&B3&B4&B5&B6&B7). unfold alike. split_and!; try congruence. intros kk H. by apply B7, A7. Qed.
Lemma alike_resume (s : wstate) : alike s (resume s).
Proof.
  unfold resume. destruct (wco s) eqn:E; try (by apply alike_same; rewrite ?E).
  unfold alike. split_and!; try done. cbn. intros kk [H|H]; [|congruence]. right. congruence.
Qed.
Lemma alike_trigger a p (s : wstate) : alike s (trigger a p s).
Proof. unfold trigger. destruct (amode a); try (by apply alike_same). eapply alike_trans; [|apply alike_resume]. by apply alike_same. Qed.

Lemma waiting_log d0 base kk (s s' : wstate) e : wtrace s' = e :: wtrace s -> match e with TDev _ | TEmit NewConnection _ => False | _ => True end -> wdev s' = wdev s -> wleak s' = wleak s -> walive s' = walive s -> wtodo s' = wtodo s ->
  whelp s' = whelp s -> wco s' = wco s -> waiting d0 base kk s -> waiting d0 base kk s'.
Proof.
  intros E1 He E2 E3 E4 E5 E6 E7 (l & Ht & H). exists (e :: l). split; [by rewrite E1, Ht|]. destruct H as [(v & l1 & l2 & -> & H)|(H1 & H2 & H3 & H4 & H5 & H6)].
  - left. by exists v, (e :: l1), l2.
  - right. rewrite E7. split; [done|]. split; [rewrite E2, H2; by destruct e|]. split; [by apply conserved_log|]. split; [unfold noleak; by rewrite E3|]. rewrite E4, E5, E6. done.
Qed.

Lemma waiting_ready d0 base kk sg p (s : wstate) : waiting d0 base kk s -> waiting d0 base kk (ready sg p s).
Proof.
  intros W. unfold ready. destruct (whelp s) as [[[i h] live]|] eqn:E; [|by eapply alike_waiting; [|exact W]; apply alike_same]. set (s1 := wlog _ _).
  assert (waiting d0 base kk s1) as W1.
  { destruct W as (l & Ht & H). exists (TReady p :: l). split; [cbn; by rewrite Ht|]. destruct H as [(v & l1 & l2 & -> & H)|(H1 & H2 & H3 & H4 & H5 & i' & live' & H6 & H7)].
    - left. by exists v, (TReady p :: l1), l2.
    - right. split; [done|]. split; [done|]. split; [by apply conserved_log|]. split; [done|]. split; [done|]. rewrite E in H6. injection H6 as -> -> ->.
      exists i', (λ x, live' x && keeps server_helper sg x). split; [done|]. intros Ha x. cbn. by rewrite H7. }
  destruct (waw s1) as [a|]; [|done]. destruct (asrc a); [done|]. destruct (aconn a); [|done]. eapply alike_waiting; [apply alike_trigger|done].
Qed.

Lemma waiting_emit d0 base kk sg p (s : wstate) : (wco s = CSusp kk ∨ wco s = CBack kk) -> walive s = true -> waiting d0 base kk s -> waiting d0 base kk (emit sg p s).
Proof.
  intros Hco Ha (l & Ht & W). unfold emit.
  destruct W as [(v & l1 & l2 & -> & H)|(H1 & H2 & H3 & H4 & H5 & i & live & H6 & H7)].
  { assert (∀ s1 : wstate, (∃ x, wtrace s1 = x ++ wtrace s) -> waiting d0 base kk s1) as K.
    { intros s1 [x Hx]. exists (x ++ l1 ++ TResume v :: l2). split; [by rewrite Hx, Ht, (app_assoc x)|]. left. exists v, (x ++ l1), l2. by rewrite <- app_assoc. }
    apply K. apply (emit_grows sg p s). }
  rewrite (H4 sg). set (s2 := helper_slot _ _ _).
  assert (waiting d0 base kk s2) as W2.
  { unfold s2, helper_slot. cbn [whelp wlog]. rewrite H6, H7 by done. change (wdev (wlog (TEmit sg p) s)) with (wdev s).
    assert (waiting d0 base kk s) as W by (exists l; split; [done|right; split_and!; try done; by exists i, live]).
    destruct sg; cbn; try (by eapply waiting_log; [..|exact W]).
    - apply waiting_ready. exists (TDev (set_pending (tail (o_pending (wdev s))) (wdev s)) :: TEmit NewConnection p :: l). split; [cbn; by rewrite Ht|]. right. split; [done|]. split; [done|].
      split; [rewrite H2; by apply conserved_taken|]. split; [done|]. split; [done|]. by exists i, live.
    - apply waiting_ready. by eapply waiting_log; [..|exact W]. }
  clearbody s2. destruct (waw s2) as [a|]; [|done]. destruct (asrc a) as [m|]; [|done]. destruct (aconn a); [|done]. destruct (m sg p); [|done]. eapply alike_waiting; [apply alike_trigger|done].
Qed.

(** Once the wait is over, everything is kept. *)
Lemma over_grows d0 base kk (s s' : wstate) x : wtrace s' = x ++ wtrace s -> (∃ l v l1 l2, wtrace s = l ++ base ∧ l = l1 ++ TResume v :: l2 ∧ conserved d0 l2) -> waiting d0 base kk s'.
Proof. intros E (l & v & l1 & l2 & Ht & -> & H). exists (x ++ l1 ++ TResume v :: l2). split; [by rewrite E, Ht, (app_assoc x)|]. left. exists v, (x ++ l1), l2. by rewrite <- app_assoc. Qed.

Lemma waiting_step d0 base kk (s s' : wstate) : step s = Next s' -> waiting d0 base kk s -> waiting d0 base kk s'.
Proof.
  intros Hs W. pose proof W as (l & Ht & [(v & l1 & l2 & E & H)|(H1 & H2 & H3 & H4 & H5 & H6)]).
  { destruct (step_grows _ _ Hs) as [x Hx]. eapply over_grows; [exact Hx|]. eauto 10. }
  unfold step in Hs. destruct (wubs s); [done|]. destruct H1 as [H1|H1]; rewrite H1 in Hs.
  - destruct (wtodo s) as [|[sg p] q] eqn:Et; [done|]. injection Hs as <-. apply waiting_emit; [by left| |].
    + cbn. destruct (walive s); [done|]. by discriminate H5.
    + exists l. split; [done|]. right. split_and!; try done; [by left|]. cbn. intros Ha. by apply H5 in Ha.
  - injection Hs as <-. set (v := match waw s with Some a => ares a | None => None end). clearbody v. exists (TResume v :: l). split; [unfold drop_awaiter; destruct (waw s); cbn; by rewrite Ht|].
    left. by exists v, [], l.
Qed.
Lemma waiting_env denv d0 base kk e (s s' : wstate) : queues denv -> step s = Idle -> wubs s = None -> env_step e s = Next s' -> match e with EvDev d ems => denv (wdev s) ems d | _ => True end ->
  waiting d0 base kk s -> waiting d0 base kk s'.
Proof.
  intros Hq Hid Hu He Hd W. pose proof W as (l & Ht & [(v & l1 & l2 & E & H)|(H1 & H2 & H3 & H4 & H5 & i & live & H6 & H7)]).
  { destruct (env_grows _ _ _ He) as [x Hx]. eapply over_grows; [exact Hx|]. eauto 10. }
  destruct e; cbn in He.
  - destruct (walive s) eqn:Ea; [|done]. injection He as <-. exists (TDev d :: l). split; [cbn; by rewrite Ht|]. right. split; [done|]. split; [done|]. destruct (Hq _ _ _ Hd) as [x Hx].
    split; [apply (conserved_own _ _ _ x); [by rewrite <- H2|done]|]. split; [done|]. split; [cbn; congruence|]. exists i, live. split; [done|]. intros _. by apply H7.
  - destruct (walive s) eqn:Ea; [|done]. injection He as <-. exists (TDestroy :: l). split; [cbn; by rewrite Ht|]. right. split; [done|]. split; [done|]. split; [by apply conserved_log|]. split; [done|].
    split; [|cbn; rewrite H6; by eexists _, _]. intros _. cbn. unfold step in Hid. rewrite Hu in Hid. destruct H1 as [H1|H1]; rewrite H1 in Hid; [|done]. by destruct (wtodo s) as [|[??]?].
  - destruct (wposted s) as [|[j p|j sg p] q]; [done|..].
    + cbn in He. destruct (waw s) as [a|]; [destruct (decide _)|]; injection He as <-; try (by eapply alike_waiting; [|exact W]; apply alike_same).
      eapply alike_waiting; [|exact W]. eapply alike_trans; [|apply alike_resume]. by apply alike_same.
    + cbn in He. rewrite H6 in He. destruct (decide _); injection He as <-; [|by eapply alike_waiting; [|exact W]; apply alike_same].
      apply waiting_ready. eapply alike_waiting; [|exact W]. by apply alike_same.
  - destruct (wshots s); [done|]. injection He as <-. eapply alike_waiting; [|exact W]. eapply alike_trans; [|apply alike_resume]. by apply alike_same.
  - destruct (waw s) as [a|]; [|done]. destruct (atimer a); [|done]. destruct (decide _); [|done]. injection He as <-.
    destruct (actx a); [eapply alike_waiting; [apply alike_resume|]|]; (by eapply waiting_log; [..|exact W]).
  - injection He as <-. by eapply waiting_log; [..|exact W].
Qed.
Lemma waiting_exec denv d0 base kk (s s' : wstate) : queues denv -> exec denv s s' -> waiting d0 base kk s -> waiting d0 base kk s'.
Proof. intros Hq. induction 1 as [s|s0 s s' H IH Hs|s0 s e s' H IH Hi Hu He Hd]; intros W; [done|..]; [eapply waiting_step; [exact Hs|by apply IH]|eapply waiting_env; [done..|by apply IH]]. Qed.

Lemma announced_app d (l l' : list tev) : announced d (l' ++ l) = announced d l ++ announced (dev_after d l) l'.
Proof.
  induction l' as [|e l' IH]; [by rewrite app_nil_r|]. cbn [app]. destruct e as [|sg p| | | | | | | | |]; try exact IH. destruct sg; try exact IH. cbn. by rewrite IH, dev_after_app, app_assoc.
Qed.
Lemma announced_none d (l : list tev) : (∀ a, TEmit NewConnection a ∉ l) -> announced d l = [].
Proof.
  induction l as [|e l IH]; intros H; [done|]. rewrite <- IH by (intros a ?; apply (H a); by right). destruct e as [|sg p| | | | | | | | |]; try done. destruct sg; try done. destruct (H p). left.
Qed.

(** How the connection returned relates to those announced: it is the first. *)
Lemma next_announced d to c x (l : list tev) : next_connection d to c l -> TSusp FromHelper to ∈ l -> c = Some x -> ∃ rest, announced d l = x :: rest.
Proof.
  intros N Hin E. inversion N as [| |n lw|v a l1 l2 ? ? lw|v a l1 l2 Hl Hp lw Hq Hno]; subst c; try done.
  - subst l. by apply elem_of_list_singleton in Hin.
  - exists (announced (dev_after d (TEmit NewConnection a :: l2 ++ [TSusp FromHelper to])) (TResume (Some v) :: l1)).
    assert (TResume (Some v) :: lw ++ [TSusp FromHelper to] = (TResume (Some v) :: l1) ++ TEmit NewConnection a :: l2 ++ [TSusp FromHelper to]) as -> by (unfold lw; cbn; by rewrite <- app_assoc).
    rewrite announced_app. cbn [announced]. rewrite (announced_none d (l2 ++ [TSusp FromHelper to])).
    2: { intros a' [Hi|Hi%elem_of_list_singleton]%elem_of_app; [|done]. by destruct (Hno _ _ Hi). }
    rewrite dev_after_app. cbn [dev_after]. rewrite H. done.
Qed.

(** Of a server whose queue of connections only grows by itself: a call that need not wait takes the oldest pending connection, or nothing, and
    returns it. One that waits takes, at each newConnection emitted until it returns, the oldest pending connection; the connections
    that came are, in order, those taken and those still pending. If it returns one it is the first taken; all others taken are lost. *)
Theorem C129_connections denv to (s0 : wstate) : queues denv -> reach denv s0 -> wubs s0 = None -> noleak s0 -> walive s0 = true -> whelp s0 = None ->
  call_spec denv s0 (λ k : option nat -> wprog, ws_nextPendingConnection to k) (λ _ _, False)
    (λ c l s, next_connection (wdev s0) to c l ∧
       if decide (o_listening (wdev s0) = true ∧ o_pending (wdev s0) = [])
       then clients (wdev s0) l = announced (wdev s0) l ++ o_pending (wdev s) ∧ (∀ x, c = Some x -> ∃ lost, announced (wdev s0) l = x :: lost)
       else o_pending (wdev s0) = option_list c ++ o_pending (wdev s)).
Proof.
  intros Hq Hr Hu Hl Ha Hh. destruct (o_listening (wdev s0)) eqn:El; [destruct (o_pending (wdev s0)) as [|c cs] eqn:Ep|].
  - intros k s Hc Hx. pose proof (reach_clean _ _ _ Hr Hu Hc) as Hcl.
    set (kk := (λ r, k (conn_of r))). set (s1 := set_co (CRun (qCoro_helper server_helper to kk)) s0).
    assert (Hst : step s0 = Next s1). { unfold step. rewrite Hu, Hc. unfold ws_nextPendingConnection. rewrite Ha, El, Ep. done. }
    destruct (exec_inv _ _ _ Hx) as [->|[(s1' & Hst' & Hx')|(e & s1' & Hst' & _)]]; [|rewrite Hst in Hst'; injection Hst' as <-|congruence].
    { left. exists []. split; [done|]. split; [apply inside_nil|congruence]. }
    set (s2 := set_co (CRun (helper_awaiting to kk)) (with_helper server_helper s0)).
    assert (Hst1 : step s1 = Next s2) by (apply with_helper_step; done).
    destruct (exec_inv _ _ _ Hx') as [->|[(s2' & Hst' & Hx2)|(e & s2' & Hst' & _)]]; [|rewrite Hst1 in Hst'; injection Hst' as <-|congruence].
    { left. exists []. split; [done|]. split; [apply inside_nil|]. intros u. change (wubs s1) with (wubs s0). congruence. }
    destruct (helper_await_exec denv server_helper to kk (with_helper server_helper s0) s) as [(l & Ht & Hi & Hus)|(s3 & l & v & Hx3 & Hx4 & Hc3 & _ & Hu3 & Ht3 & Hqu & Hh3 & _ & Hw & Hhi & _)];
      [by apply with_helper_clean|done|done|by apply hready_new|done|..].
    + left. exists l. split; [done|]. split; [done|]. congruence.
    + right. exists s3, (TResume v :: l ++ [TSusp FromHelper to]), (conn_of v). split; [eapply exec_trans; [|exact Hx3]; eapply exec_step; [eapply exec_step; [constructor|exact Hst]|exact Hst1]|].
      split; [done|]. split; [done|]. split; [done|]. split; [done|]. split.
      { apply inside_cons; [done|]. apply inside_app; [by apply quiet_inside|]. apply inside_cons; [done|apply inside_nil]. }
      assert (next_connection (wdev s0) to (conn_of v) (TResume v :: l ++ [TSusp FromHelper to])) as Hn by (apply (ws_server_wait s0 s3); try done; by apply waited_with_helper in Hw).
      split; [done|]. rewrite decide_True by done.
      (* the suspension *)
      set (base := TSusp FromHelper to :: wtrace s0). set (kw := λ r, WDrop (kk r)).
      assert (∃ s4, step s2 = Next s4 ∧ waiting (wdev s0) base kw s4) as (s4 & Hst2 & W4).
      { eexists. split; [unfold step; cbn; rewrite Hu; reflexivity|]. cbn. exists []. split; [done|]. right. split; [by left|]. split; [done|]. split; [by unfold conserved; cbn; rewrite app_nil_r|]. split; [exact Hl|].
        split; [cbn; congruence|]. eexists _, _. split; [done|]. done. }
      assert (waiting (wdev s0) base kw s3) as W3.
      { destruct (exec_inv _ _ _ Hx3) as [E|[(s4' & Hst' & Hx5)|(e & s4' & Hst' & _)]].
        - exfalso. rewrite E in Ht3. change (wtrace (set_co _ _)) with (wtrace s0) in Ht3. change (wtrace (with_helper _ _)) with (wtrace s0) in Ht3. apply (f_equal length) in Ht3. rewrite app_length in Ht3. cbn in Ht3. lia.
        - change (set_co _ (with_helper server_helper s0)) with s2 in Hst'. rewrite Hst2 in Hst'. injection Hst' as <-. eapply waiting_exec; [exact Hq|exact Hx5|exact W4].
        - change (set_co _ (with_helper server_helper s0)) with s2 in Hst'. congruence. }
      destruct W3 as (l' & Ht3' & H3). assert (l' = TResume v :: l) as ->. { apply (app_inv_tail base). rewrite <- Ht3', Ht3. unfold base. cbn. by rewrite <- app_assoc. }
      destruct H3 as [(v' & l1 & l2 & E & H)|([H|H] & _)]; [|congruence..].
      assert (l2 = l) as ->. { destruct l1 as [|e l1]; injection E as _ E; [done|]. exfalso. apply (Hqu (TResume v')). rewrite E. apply elem_of_app. right. left. }
      split.
      * unfold conserved in H. rewrite Ep in H. cbn in H. assert (wdev s3 = dev_after (wdev s0) l) as -> by exact (wd_dev _ _ _ _ _ _ Hw).
        cbn [clients announced]. rewrite clients_app, announced_app. cbn. exact H.
      * intros x Ex. eapply next_announced; [exact Hn| |exact Ex]. right. apply elem_of_app. right. by left.
  - apply cspec_call; try done. apply (cspec_get denv s0 (ws_on to)); [done|]. unfold ws_on. rewrite El, Ep. cbn [negb].
    apply cspec_take; [congruence|]. intros _ co d2. rewrite Ep. unfold d2. rewrite Ep. split; [by apply (nw_pending (wdev s0) to c cs)|]. rewrite decide_False by naive_solver. done.
  - apply cspec_call; try done. apply (cspec_get denv s0 (ws_on to)); [done|]. unfold ws_on. rewrite El. cbn [negb].
    apply (cspec_ret denv s0 None). intros co. split; [by apply nw_deaf|]. rewrite decide_False by naive_solver. done.
Qed.
End server.
Print Assumptions C129_connections.

(** Examples: two clients before the resumption, the second is lost; *)
Definition run129 := wplay 20 [EvDev (serving [4]) [(NewConnection, ANone)]; EvDev (serving [5]) [(NewConnection, ANone)]; EvPosted] (winit (serving []) true (ws_nextPendingConnection None report)).
Example ex129 : reach grows run129 ∧ queues grows ∧ reported run129 = [Some 4] ∧ announced (serving []) (wtrace run129) = [4; 5] ∧ clients (serving []) (wtrace run129) = [4; 5] ∧ o_pending (wdev run129) = [].
Proof.
  split; [apply wplay_reach; vm_compute; split; [by exists [4]|]; split; [by exists [5]|]; done|]. split; [by intros ? ? ? ?|]. split_and!; vm_compute; reflexivity.
Qed.
(** a client at the moment the time is up: taken, but not returned; *)
Definition run129t := wplay 20 [EvTick; EvDev (serving [4]) [(NewConnection, ANone)]; EvTimer] (winit (serving []) true (ws_nextPendingConnection (Some 1) report)).
Example ex129_timeout : reach grows run129t ∧ reported run129t = [None] ∧ announced (serving []) (wtrace run129t) = [4] ∧ o_pending (wdev run129t) = [].
Proof. split; [apply wplay_reach; vm_compute; split; [done|]; split; [by exists [4]|]; done|]. split_and!; vm_compute; reflexivity. Qed.
(** two clients announced by one signal: the second stays pending. *)
Definition run129p := wplay 20 [EvDev (serving [4; 5]) [(NewConnection, ANone)]; EvPosted] (winit (serving []) true (ws_nextPendingConnection None report)).
Example ex129_pending : reach grows run129p ∧ reported run129p = [Some 4] ∧ announced (serving []) (wtrace run129p) = [4] ∧ o_pending (wdev run129p) = [5].
Proof. split; [apply wplay_reach; vm_compute; split; [by exists [4; 5]|]; done|]. split_and!; vm_compute; reflexivity. Qed.
