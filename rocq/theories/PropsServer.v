(** * Properties of QCoroWebSocketServer::nextPendingConnection() after its return: C122.

    Vocabulary: QtModel.v, QtSpec.v, QtObj.v, QtNet.v (the code), QtNetSpec.v. *)
From stdpp Require Import list.
From Coq Require Import ZArith.
From Verif Require Import QtModel QtSpec QtInv QtAwait QtReach QtWrap QtTrace QtBehave QtCall QtEnds QtCall2 QtEnds2 QtObj QtIO QtIOFacts QtNet QtNetSpec QtStuck QtNetFacts QtNetFacts2 QtNetFacts3 QtLife QtLeak PropsSignal PropsIO PropsNet.

Section server.
Context {O A : Type}.
Notation wstate := (@wstate qobj sig arg O A).
Notation wprog := (@wprog qobj sig arg O A).
Notation tev := (@tev qobj sig arg O A).

(** In every continuation of [s2]: a client that connects while the server exists is undefined behaviour. *)
Definition next_client_is_undefined denv (s2 : wstate) : Prop :=
  ∀ s l1 a l2, exec denv s2 s -> wtrace s = (l1 ++ TEmit NewConnection a :: l2) ++ wtrace s2 -> TDestroy ∉ l2 -> is_Some (wubs s).

(** Violated: a server can be used after nextPendingConnection() returned. If the call had to wait, then, whatever it returned, the next client
    that connects is undefined behaviour, unless the server was destroyed. Only if it did not wait or the server was destroyed
    meanwhile, nothing is left behind ([noleak]: the hypothesis of the theorems about calls). *)
Theorem C122_undefined_after_wait_refuted denv to (s0 : wstate) : reach denv s0 -> wubs s0 = None -> noleak s0 -> walive s0 = true -> whelp s0 = None ->
  call_spec denv s0 (λ k : option nat -> wprog, ws_nextPendingConnection to k) (λ _ _, False)
    (λ c l s2, next_connection (wdev s0) to c l ∧
       (TSusp FromHelper to ∈ l -> TDestroy ∉ l -> next_client_is_undefined denv s2) ∧
       (TSusp FromHelper to ∉ l ∨ TDestroy ∈ l -> noleak s2)).
Proof.
  intros Hr Hu Hl Ha Hh. destruct (o_listening (wdev s0)) eqn:El; [destruct (o_pending (wdev s0)) as [|c cs] eqn:Ep|].
  - intros k s Hc Hx. pose proof (reach_clean _ _ _ Hr Hu Hc) as Hcl.
    set (s1 := set_co (CRun (qCoro_helper server_helper to (λ r, k (conn_of r)))) s0).
    assert (Hst : step s0 = Next s1). { unfold step. rewrite Hu, Hc. unfold ws_nextPendingConnection. rewrite Ha, El, Ep. done. }
    destruct (exec_inv _ _ _ Hx) as [->|[(s1' & Hst' & Hx')|(e & s1' & Hst' & _)]]; [|rewrite Hst in Hst'; injection Hst' as <-|congruence].
    { left. exists []. split; [done|]. split; [apply inside_nil|congruence]. }
    set (s2 := set_co (CRun (helper_awaiting to (λ r, k (conn_of r)))) (with_helper server_helper s0)).
    assert (Hst1 : step s1 = Next s2) by (apply with_helper_step; done).
    destruct (exec_inv _ _ _ Hx') as [->|[(s2' & Hst' & Hx2)|(e & s2' & Hst' & _)]]; [|rewrite Hst1 in Hst'; injection Hst' as <-|congruence].
    { left. exists []. split; [done|]. split; [apply inside_nil|]. intros u. change (wubs s1) with (wubs s0). congruence. }
    destruct (helper_await_exec denv server_helper to (λ r, k (conn_of r)) (with_helper server_helper s0) s) as [(l & Ht & Hi & Hus)|(s3 & l & v & Hx3 & Hx4 & Hc3 & _ & Hu3 & Ht3 & Hq & Hh3 & _ & Hw & Hhi & _)];
      [by apply with_helper_clean|done|done|by apply hready_new|done|..].
    + left. exists l. split; [done|]. split; [done|]. congruence.
    + assert (Hx03 : exec denv s0 s3) by (eapply exec_trans; [|exact Hx3]; eapply exec_step; [eapply exec_step; [constructor|exact Hst]|exact Hst1]).
      right. exists s3, (TResume v :: l ++ [TSusp FromHelper to]), (conn_of v). split; [done|].
      split; [done|]. split; [done|]. split; [done|]. split; [done|]. split.
      { apply inside_cons; [done|]. apply inside_app; [by apply quiet_inside|]. apply inside_cons; [done|apply inside_nil]. }
      split; [|split].
      * apply (ws_server_wait s0 s3); try done. by apply waited_with_helper in Hw.
      * intros _ Hd sx l1 a l2 Hxx Htx Hdx.
        assert (Hst3 : stale NewConnection s3).
        { destruct (armed_exec server_helper NewConnection ltac:(done) ltac:(done) denv _ _ Hx3 _ Ht3 Hd) as [?|(i & live & E & _)]; [|done|congruence].
          right. by eexists _, _. }
        destruct (stale_exec server_helper NewConnection ltac:(done) ltac:(done) denv _ _ Hxx Hst3 _ Htx) as [_ H]. specialize (H l1 a l2 eq_refl Hdx). destruct (wubs sx); [eauto|done].
      * intros [Hn|Hd]; [destruct Hn; right; apply elem_of_app; right; by left|].
        assert (Hg : gone s3) by (eapply gone_exec; [exact Hx03|]; unfold gone; congruence).
        destruct (destroyed_dead _ _ _ Hx03 _ Ht3 Hd) as [Hdd _]. by destruct (Hg Hdd).
  - apply cspec_call; try done. apply (cspec_get denv s0 (ws_on to)); [done|]. unfold ws_on. rewrite El, Ep. cbn [negb].
    eapply cspec_mono; [apply (cspec_take denv s0 (λ _ _, False) (λ c l _, next_connection (wdev s0) to c l ∧ l = [TDev (set_pending cs (wdev s0))])); [congruence|]; intros _ co d2; rewrite Ep; unfold d2; rewrite Ep; split; [by apply (nw_pending (wdev s0) to c cs)|done]|done|].
    cbn beta. intros b l s (_ & _ & ?) [? ->]. split; [done|]. split; [|done]. by intros ?%elem_of_list_singleton.
  - apply cspec_call; try done. apply (cspec_get denv s0 (ws_on to)); [done|]. unfold ws_on. rewrite El. cbn [negb].
    apply (cspec_ret denv s0 None). intros co. split; [by apply nw_deaf|]. split; [by intros ?%elem_of_nil|done].
Qed.
End server.
Print Assumptions C122_undefined_after_wait_refuted.

(** The hypotheses hold at the start; the usual loop: the first client is returned, the second one is undefined behaviour, with
    no second call in between or with one. *)
Definition accept_two : @wprog qobj sig arg (option nat) unit := ws_nextPendingConnection None (λ c, WObs c (ws_nextPendingConnection None (λ c, WObs c (WRet tt)))).
Definition run122 := wplay 20 [EvDev (serving [4]) [(NewConnection, ANone)]; EvPosted; EvTick; EvDev (serving [5]) [(NewConnection, ANone)]] (winit (serving []) true accept_two).
Example ex122 : reach grows run122 ∧ reported run122 = [Some 4] ∧ wubs run122 = Some WStaleSlot ∧
  wtrace run122 = [TEmit NewConnection ANone; TDev (serving [5]); TTick; TSusp FromHelper None; TObs (Some 4); TResume (Some (AConn (Some 4))); TReady (AConn (Some 4));
    TDev (serving []); TEmit NewConnection ANone; TDev (serving [4]); TSusp FromHelper None].
Proof. split; [apply wplay_reach; vm_compute; split; [by exists [4]|]; split; [done|]; split; [done|]; split; [by exists [5]|]; done|]. split_and!; vm_compute; reflexivity. Qed.
