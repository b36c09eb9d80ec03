(** * Facts about the wrappers of QtNet.v, continued: replies, servers, timers, web sockets. *)
From stdpp Require Import list.
From Coq Require Import ZArith.
From Verif Require Import QtModel QtSpec QtInv QtAwait QtReach QtWrap QtTrace QtBehave QtCall QtEnds QtCall2 QtEnds2 QtObj QtIO QtIOFacts QtIOEnds QtNet QtNetSpec QtStuck QtNetFacts.

Section facts.
Context {O A : Type}.
Notation wstate := (@wstate qobj sig arg O A).
Notation wprog := (@wprog qobj sig arg O).
Notation tev := (@tev qobj sig arg O A).
#[local] Arguments relays : simpl never.
#[local] Arguments emissions : simpl never.

(** ** co_await reply *)
Definition on_reply (d : qobj) (k : bool -> wprog A) : wprog A := if o_finished d then k true else WAwait MQueued (FromDev (only Finished)) None (λ _, WAlive k).
Lemma cspec_co_await_reply denv (s0 : wstate) (U : wub -> list tev -> Prop) : walive s0 = true ->
  cspec denv s0 (λ k : bool -> wprog A, co_await_reply k) U (λ b l s, reply_awaited (wdev s0) b l ∧ walive s = b).
Proof.
  intros Ha. unfold co_await_reply. apply (cspec_alive denv s0 (λ b k, if b then WGet (λ d, on_reply d k) else k false)). rewrite Ha.
  apply (cspec_get denv s0 on_reply); [done|]. unfold on_reply. destruct (o_finished (wdev s0)) eqn:E.
  { apply (cspec_ret denv s0 true). intros co. split; [by apply ra_now|done]. }
  apply (cspec_bind denv s0 (λ k, WAwait MQueued (FromDev (only Finished)) None k) (λ r k, WAlive k) _
    (λ v l s, ∃ b, reply_awaited (wdev s0) b l ∧ walive s = b)).
  - apply cspec_await; [done|by intros []|]. intros v l s2 Hw _. pose proof Hw as []. exists (walive s2). split; [|done].
    destruct v as [p|]; [|by destruct wd_res as (? & ? & ? & _)]. destruct wd_res as [Hhd _]. destruct (first_only _ _ _ Hhd) as (l1 & l2 & -> & Hn). apply ra_signal; try done.
    destruct (destroy_dec (l1 ++ TEmit Finished p :: l2)) as [Hd|Hd].
    + rewrite wd_dead by done. naive_solver.
    + rewrite wd_alive by done. rewrite Ha. naive_solver.
  - intros v l s2 _ (b & Hr & Hb) _. apply (cspec_alive denv s2 (λ b k, k b)). rewrite Hb. apply (cspec_ret denv s2 b). intros co. done.
Qed.
Lemma cspec_co_await_no_reply denv (s0 : wstate) (U : wub -> list tev -> Prop) : walive s0 = false ->
  cspec denv s0 (λ k : bool -> wprog A, co_await_reply k) U (λ b l s, b = false ∧ l = []).
Proof.
  intros Ha. unfold co_await_reply. apply (cspec_alive denv s0 (λ b k, if b then WGet (λ d, on_reply d k) else k false)). rewrite Ha.
  by apply (cspec_ret denv s0 false).
Qed.
Lemma cends_co_await_reply denv (s0 : wstate) : cends denv s0 (λ k : bool -> wprog A, co_await_reply k) (λ l, ∃ a, TEmit Finished a ∈ l).
Proof.
  unfold co_await_reply. apply (cends_alive denv s0 (λ b k, if b then WGet (λ d, on_reply d k) else k false)). destruct (walive s0) eqn:Ha; [|apply (cends_ret denv s0 false)].
  apply (cends_get denv s0 on_reply); [done|]. unfold on_reply. destruct (o_finished (wdev s0)) eqn:E; [apply (cends_ret denv s0 true)|].
  apply (cends_then denv s0 (λ k, WAwait MQueued (FromDev (only Finished)) None k) (λ r k, WAlive k)).
  - eapply cends_mono; [|by apply cends_await]. intros l [a Hin]. left. by eapply emitted_only.
  - intros k b s2 Hc Hu. eapply imm_step; [unfold step; rewrite Hu, Hc; reflexivity|]. apply imm_done. left. eauto.
Qed.

(** ** Timers *)
Definition on_timer (d : qobj) (k : unit -> wprog A) : wprog A := if o_active d then WAwait MDirect (FromDev (only Timeout)) None (λ _, k tt) else k tt.
Lemma cspec_co_await_timer denv (s0 : wstate) (U : wub -> list tev -> Prop) : walive s0 = true ->
  cspec denv s0 (λ k : unit -> wprog A, co_await_timer k) U (λ _ l s, timer_awaited (FromDev (only Timeout)) (wdev s0) l ∧ kept s0 s l).
Proof.
  intros Ha. unfold co_await_timer. apply (cspec_alive denv s0 (λ b k, if b then WGet (λ d, on_timer d k) else k tt)). rewrite Ha.
  apply (cspec_get denv s0 on_timer); [done|]. unfold on_timer. destruct (o_active (wdev s0)) eqn:E.
  2: { apply (cspec_ret denv s0 tt). intros co. split; [by apply ta_now|apply kept_refl]. }
  apply (cspec_bind denv s0 (λ k, WAwait MDirect (FromDev (only Timeout)) None k) (λ r k, k tt) _
    (λ v l s, timer_awaited (FromDev (only Timeout)) (wdev s0) l ∧ kept s0 s l)).
  - apply cspec_await; [done|by intros []|]. intros v l s2 Hw _. split; [|by apply waited_kept]. pose proof Hw as [].
    destruct v as [p|]; [|by destruct wd_res as (? & ? & ? & _)]. destruct wd_res as [Hhd _]. destruct (first_only _ _ _ Hhd) as (l1 & l2 & -> & Hn). by apply ta_signal.
  - intros v l s2 _ (? & []) _. apply (cspec_ret denv s2 tt). intros co. split; [done|]. split; done.
Qed.
Lemma cspec_co_await_no_timer denv (s0 : wstate) (U : wub -> list tev -> Prop) : walive s0 = false ->
  cspec denv s0 (λ k : unit -> wprog A, co_await_timer k) U (λ _ l s, l = []).
Proof.
  intros Ha. unfold co_await_timer. apply (cspec_alive denv s0 (λ b k, if b then WGet (λ d, on_timer d k) else k tt)). rewrite Ha.
  by apply (cspec_ret denv s0 tt).
Qed.
Lemma cends_co_await_timer denv (s0 : wstate) : cends denv s0 (λ k : unit -> wprog A, co_await_timer k) (λ l, ∃ a, TEmit Timeout a ∈ l).
Proof.
  unfold co_await_timer. apply (cends_alive denv s0 (λ b k, if b then WGet (λ d, on_timer d k) else k tt)). destruct (walive s0) eqn:Ha; [|apply (cends_ret denv s0 tt)].
  apply (cends_get denv s0 on_timer); [done|]. unfold on_timer. destruct (o_active (wdev s0)) eqn:E; [|apply (cends_ret denv s0 tt)].
  apply (cends_then denv s0 (λ k, WAwait MDirect (FromDev (only Timeout)) None k) (λ r k, k tt)).
  - eapply cends_mono; [|by apply cends_direct]. intros l [a Hin]. by eapply emitted_only.
  - intros k b s2 Hc Hu. apply imm_done. left. eauto.
Qed.
Lemma cspec_timer_waitForTimeout denv (s0 : wstate) (U : wub -> list tev -> Prop) : walive s0 = true ->
  cspec denv s0 (λ k : unit -> wprog A, timer_waitForTimeout k) U (λ _ l s, timer_awaited (FromDev (only Timeout)) (wdev s0) l ∧ kept s0 s l).
Proof.
  intros Ha. unfold timer_waitForTimeout, qCoro_signal, qCoro_timeout.
  apply (cspec_get denv s0 (λ d k, if o_active d then WAwait MQueued (FromDev (only Timeout)) None (λ r, match r with Some p => k tt | None => WBad end) else k tt)); [done|].
  destruct (o_active (wdev s0)) eqn:E.
  2: { apply (cspec_ret denv s0 tt). intros co. split; [by apply ta_now|apply kept_refl]. }
  apply (cspec_bind denv s0 (λ k, WAwait MQueued (FromDev (only Timeout)) None k) (λ r k, match r with Some p => k tt | None => WBad end) _
    (λ v l s, is_Some v ∧ timer_awaited (FromDev (only Timeout)) (wdev s0) l ∧ kept s0 s l)).
  - apply cspec_await; [done|by intros []|]. intros v l s2 Hw _. split; [|split; [|by apply waited_kept]]; pose proof Hw as [];
      (destruct v as [p|]; [|by destruct wd_res as (? & ? & ? & _)]); [by eexists|]. destruct wd_res as [Hhd _]. destruct (first_only _ _ _ Hhd) as (l1 & l2 & -> & Hn). by apply ta_signal.
  - intros v l s2 _ ([p ->] & ? & []) _. apply (cspec_ret denv s2 tt). intros co. split; [done|]. split; done.
Qed.
Lemma cends_timer_waitForTimeout denv (s0 : wstate) : walive s0 = true -> cends denv s0 (λ k : unit -> wprog A, timer_waitForTimeout k) (λ l, ∃ a, TEmit Timeout a ∈ l).
Proof.
  intros Ha. unfold timer_waitForTimeout, qCoro_signal, qCoro_timeout.
  apply (cends_get denv s0 (λ d k, if o_active d then WAwait MQueued (FromDev (only Timeout)) None (λ r, match r with Some p => k tt | None => WBad end) else k tt)); [done|].
  destruct (o_active (wdev s0)) eqn:E; [|apply (cends_ret denv s0 tt)].
  apply (cends_then denv s0 (λ k, WAwait MQueued (FromDev (only Timeout)) None k) (λ r k, match r with Some p => k tt | None => WBad end)).
  - eapply cends_mono; [|by apply cends_await]. intros l [a Hin]. left. by eapply emitted_only.
  - intros k [p|] s2 Hc Hu; [apply imm_done; left; eauto|]. eapply imm_step; [unfold step; rewrite Hu, Hc; reflexivity|]. apply imm_done. right. cbn. eauto.
Qed.

(** ** QTcpServer *)
Definition dead_server (u : wub) (l : list tev) : Prop := u = WDead ∧ TDestroy ∈ l.
Definition after_wait {B} (f : (option nat -> wprog A) -> wprog A) (r : option B) (k : option nat -> wprog A) : wprog A := if has_value r then f k else k None.
Definition tcp_on to (d : qobj) (k : option nat -> wprog A) : wprog A :=
  if negb (o_listening d) then k None else
    match o_pending d with
    | _ :: _ => take_connection k
    | [] => qCoro_timeout (only NewConnection) to (λ r, after_wait take_connection r k)
    end.
Lemma cspec_take denv (s0 : wstate) (U : wub -> list tev -> Prop) (Q : option nat -> list tev -> wstate -> Prop) : (walive s0 = false -> U WDead []) ->
  (walive s0 = true -> ∀ co, let d2 := set_pending (tail (o_pending (wdev s0))) (wdev s0) in Q (head (o_pending (wdev s0))) [TDev d2] (set_co co (wlog (TDev d2) (set_dev d2 s0)))) ->
  cspec denv s0 (λ k : option nat -> wprog A, take_connection k) U Q.
Proof.
  intros HU HQ. unfold take_connection. destruct (walive s0) eqn:Ha.
  - apply (cspec_call0 denv s0 (λ d, (set_pending (tail (o_pending d)) d, [])) (λ d k, k (head (o_pending d)))); [done|done|]. cbn [fst].
    apply (cspec_ret denv _ (head (o_pending (wdev s0)))). intros co. by apply HQ.
  - by apply (cspec_call_dead denv s0 (λ d, (set_pending (tail (o_pending d)) d, [])) (λ d k, k (head (o_pending d)))); [done|apply HU].
Qed.
Lemma clients_app d (l1 l2 : list tev) : clients d (l1 ++ l2) = clients d l2 ++ clients (dev_after d l2) l1.
Proof. induction l1 as [|e l1 IH]; cbn; [by rewrite app_nil_r|]. destruct e; try done. rewrite IH, dev_after_app, app_assoc. done. Qed.
Lemma clients_behaves denv d (l : list tev) : queues denv -> behaves denv d l -> o_pending d ++ clients d l = o_pending (dev_after d l).
Proof.
  intros Hq. induction l as [|e l IH]; intros Hb; cbn; [by rewrite app_nil_r|].
  assert (Hb' : behaves denv d l) by (intros l1 d' l2 ->; by apply (Hb (e :: l1))). destruct e as [d'| | | | | | | | | |]; try by apply IH.
  destruct (Hb [] d' l eq_refl) as [ems Hd]. destruct (Hq _ _ _ Hd) as [x Hx]. rewrite app_assoc, IH by done. unfold fresh. rewrite Hx, drop_app. done.
Qed.
Lemma fresh_taken d : fresh d (set_pending (tail (o_pending d)) d) = [].
Proof. unfold fresh. cbn. destruct (o_pending d); [done|]. cbn. rewrite drop_ge by lia. done. Qed.
Lemma clients_nodev d (l : list tev) : (∀ d', TDev d' ∉ l) -> clients d l = [].
Proof.
  induction l as [|e l IH]; intros H; [done|]. cbn. rewrite IH by (intros d' ?; apply (H d'); by right). destruct e as [d'| | | | | | | | | |]; try done. destruct (H d'). left.
Qed.

Definition tcp_spec (denv : qobj -> list (sig * arg) -> qobj -> Prop) to (s0 : wstate) (c : option nat) (l : list tev) (s : wstate) : Prop :=
  new_connection (wdev s0) to c l (wdev s) ∧ kept s0 s l ∧ (TDestroy ∈ l -> c = None) ∧
  (whelp s0 = None -> queues denv -> o_pending (wdev s0) ++ clients (wdev s0) l = option_list c ++ o_pending (wdev s)).
Lemma kept_log_dev (s0 s : wstate) l d2 co : kept s0 s l -> kept s0 (set_co co (wlog (TDev d2) (set_dev d2 s))) (TDev d2 :: l).
Proof.
  intros []. split; cbn; try done.
  - intros Hn. apply ke_alive. intros ?. apply Hn. by right.
  - intros [?|?]%elem_of_cons; [done|by apply ke_dead].
Qed.
Lemma option_list_split (x : list nat) : option_list (head x) ++ tail x = x.
Proof. by destruct x. Qed.

Lemma cspec_tcp denv to (s0 : wstate) : walive s0 = true ->
  cspec denv s0 (λ k : option nat -> wprog A, tcp_waitForNewConnection to k) dead_server (tcp_spec denv to s0).
Proof.
  intros Ha. apply (cspec_get denv s0 (tcp_on to)); [done|]. unfold tcp_on. destruct (o_listening (wdev s0)) eqn:El; cbn [negb].
  2: { apply (cspec_ret denv s0 None). intros co. split; [by apply nc_deaf|]. split; [apply kept_refl|]. split; [done|]. intros _ _. cbn. apply app_nil_r. }
  destruct (o_pending (wdev s0)) as [|c cs] eqn:Ep.
  - unfold qCoro_timeout. apply (cspec_bind denv s0 (λ k, WAwait MQueued (FromDev (only NewConnection)) to k) (λ r k, after_wait take_connection r k) _
      (λ v l s, ∃ lw, l = TResume v :: lw ++ [TSusp (FromDev (only NewConnection)) to] ∧ waited (FromDev (only NewConnection)) to s0 s lw v ∧ kept s0 s l ∧ (whelp s0 = None -> behaves denv (wdev s0) l))).
    + apply cspec_await; [done|by intros []|]. intros v l s2 Hw Hb. exists l. split; [done|]. split; [done|]. split; [by apply waited_kept|].
      intros Hh. apply behaves_wait, Hb. intros i h live E. congruence.
    + intros v l s2 Hg (lw & -> & Hw & Hk & Hb) _. pose proof Hw as []. destruct v as [p|]; cbn [after_wait has_value].
      * destruct wd_res as [Hhd _]. destruct (first_only _ _ _ Hhd) as (l1 & l2 & El2 & _).
        apply cspec_take.
        -- intros Hd. split; [done|]. cbn. right. apply elem_of_app. left. eapply (dead_destroyed s2 lw); [apply wd_alive|done|done].
        -- intros Ha2 co. cbv zeta. rewrite wd_dev. set (d2 := set_pending _ _). cbn [app]. change (wdev (set_co co (wlog (TDev d2) (set_dev d2 s2)))) with d2.
           split; [|split; [|split]].
           ++ apply nc_signal; try done. rewrite El2. apply elem_of_app. right. left.
           ++ change (TDev d2 :: TResume (Some p) :: lw ++ [TSusp (FromDev (only NewConnection)) to]) with (TDev d2 :: (TResume (Some p) :: lw ++ [TSusp (FromDev (only NewConnection)) to])). by apply kept_log_dev.
           ++ intros [?|[?|[Hd|[?|?%elem_of_nil]%elem_of_cons]%elem_of_app]%elem_of_cons]%elem_of_cons; try done. rewrite (wd_dead Hd) in Ha2. done.
           ++ intros Hh Hq. cbn [clients]. pose proof (clients_behaves denv _ _ Hq (Hb Hh)) as Hc. cbn [clients dev_after] in Hc. rewrite dev_after_app in Hc. cbn [dev_after] in Hc.
              cbn [dev_after]. rewrite dev_after_app. cbn [dev_after]. rewrite app_assoc, Hc. unfold d2. rewrite fresh_taken, app_nil_r. cbn. by rewrite option_list_split.
      * apply (cspec_ret denv s2 None). intros co. unfold tcp_spec. cbn [app]. change (wdev (set_co co s2)) with (wdev s2). rewrite wd_dev. split; [|split; [|split]].
        -- destruct wd_res as (n & l' & -> & -> & ? & ? & ?). cbn [dev_after]. eapply nc_timeout; try done. intros e He. apply wd_quiet. by right.
        -- destruct Hk. split; done.
        -- done.
        -- intros Hh Hq. pose proof (clients_behaves denv _ _ Hq (Hb Hh)) as Hc. cbn [clients dev_after] in *. rewrite dev_after_app in Hc. cbn [dev_after] in Hc. done.
  - apply cspec_take; [congruence|]. intros _ co d2. rewrite Ep. cbn [head]. change (wdev (set_co co (wlog (TDev d2) (set_dev d2 s0)))) with d2. split; [|split; [|split]].
    + unfold d2. rewrite Ep. by apply (nc_pending (wdev s0) to c cs).
    + apply kept_log_dev. pose proof (kept_refl s0 (wco s0)) as Hk. by rewrite <- (set_co_same s0 (wco s0) eq_refl) in Hk.
    + intros [?|?%elem_of_nil]%elem_of_cons; done.
    + intros _ _. cbn [clients dev_after]. unfold d2. rewrite fresh_taken. cbn. by rewrite Ep, app_nil_r.
Qed.
Lemma cends_tcp denv to (s0 : wstate) : walive s0 = true -> cends denv s0 (λ k : option nat -> wprog A, tcp_waitForNewConnection to k) (sw_wait NewConnection to).
Proof.
  intros Ha. apply (cends_get denv s0 (tcp_on to)); [done|]. unfold tcp_on. destruct (o_listening (wdev s0)) eqn:El; cbn [negb]; [|apply (cends_ret denv s0 None)].
  assert (Hk : ∀ (k : option nat -> wprog A) s2, wco s2 = CRun (take_connection k) -> wubs s2 = None -> imm k s2).
  { intros k s2 Hc Hu. destruct (walive s2) eqn:Ha2; (eapply imm_step; [unfold step; rewrite Hu, Hc; cbn; rewrite Ha2; reflexivity|]); apply imm_done; [left|right]; cbn; eauto. }
  destruct (o_pending (wdev s0)) as [|c cs] eqn:Ep.
  - unfold qCoro_timeout. apply (cends_then denv s0 (λ k, WAwait MQueued (FromDev (only NewConnection)) to k) (λ r k, after_wait take_connection r k)).
    + eapply cends_mono; [|by apply cends_await]. intros l [[a Hin]|?]; [left|by right]. by eapply emitted_only.
    + intros k [p|] s2 Hc Hu; [by apply Hk|]. apply imm_done. left. by exists None.
  - apply cends_imm. intros k (_ & Hu & _). by apply Hk.
Qed.

(** Accepting in a loop. *)
Lemma cspec_accept_each denv tos : ∀ (s0 : wstate) acc, walive s0 = true -> whelp s0 = None ->
  cspec denv s0 (λ k : list (option nat) -> wprog A, accept_each tos acc k) dead_server
    (λ r l s, ∃ cs, r = acc ++ cs ∧ length cs = length tos ∧ kept s0 s l ∧ (queues denv -> o_pending (wdev s0) ++ clients (wdev s0) l = concat (map option_list cs) ++ o_pending (wdev s))).
Proof.
  induction tos as [|to tos IH]; intros s0 acc Ha Hh; cbn [accept_each].
  { apply (cspec_ret denv s0 acc). intros co. exists []. split; [by rewrite app_nil_r|]. split; [done|]. split; [apply kept_refl|]. intros _. cbn. apply app_nil_r. }
  apply (cspec_bind denv s0 (λ k, tcp_waitForNewConnection to k) (λ c k, accept_each tos (acc ++ [c]) k) _ (tcp_spec denv to s0)); [by apply cspec_tcp|].
  intros c l s Hg (Hnc & Hk & Hd & Hc) _. destruct (walive s) eqn:Ha2.
  - eapply cspec_mono; [apply IH; [done|by apply Hk]|..]; cbn beta.
    + intros u l2 [? Hin]. split; [done|]. apply elem_of_app. by left.
    + intros r l2 s3 _ (cs & -> & Hlen & Hk2 & Hc2). exists (c :: cs). split; [by rewrite <- app_assoc|]. split; [cbn; lia|]. split; [eapply kept_app; [done|done|by left]|].
      intros Hq. rewrite clients_app, app_assoc, Hc by done. rewrite <- (ke_dev _ _ _ Hk). rewrite <- app_assoc, Hc2 by done. cbn. by rewrite app_assoc.
  - (* the server is gone *)
    assert (Hdd : TDestroy ∈ l) by (eapply dead_destroyed; [apply Hk|done|done]).
    destruct tos as [|to' tos]; cbn [accept_each].
    + apply (cspec_ret denv s (acc ++ [c])). intros co. exists [c]. split; [done|]. split; [done|]. split; [destruct Hk; split; done|]. intros Hq. cbn. rewrite app_nil_r. auto.
    + apply (cspec_get_dead denv s (λ d k, tcp_on to' d (λ c0, accept_each tos ((acc ++ [c]) ++ [c0]) k))); [done|]. split; [done|]. by rewrite app_nil_l.
Qed.
End facts.
