(** * Facts about the wrappers of QtNet.v, continued: web sockets. *)
From stdpp Require Import list.
From Coq Require Import ZArith.
From Verif Require Import QtModel QtSpec QtInv QtAwait QtReach QtWrap QtTrace QtBehave QtCall QtEnds QtCall2 QtEnds2 QtObj QtIO QtIOFacts QtIOEnds QtNet QtNetSpec QtStuck QtNetFacts QtNetFacts2.

Section facts.
Context {O A : Type}.
Notation wstate := (@wstate qobj sig arg O A).
Notation wprog := (@wprog qobj sig arg O).
Notation tev := (@tev qobj sig arg O A).
#[local] Arguments relays : simpl never.
#[local] Arguments emissions : simpl never.

(** Emissions during a call to which the helper does not react. *)
Lemma emits_unrelayed ems : ∀ (s : wstate) i h live, waw s = None -> whelp s = Some (i, h, live) -> noleak s -> (∀ sg p, (sg, p) ∈ ems -> relay h sg p (wdev s) = None) ->
  foldl (λ s e, emit (fst e) (snd e) s) s ems = wlogs (emitted_by ems) s.
Proof.
  induction ems as [|[sg p] ems IH]; intros s i h live Ha Hh Hl Hr.
  - by destruct s.
  - cbn [foldl fst snd]. assert (emit sg p s = wlog (TEmit sg p) s) as ->.
    { unfold emit. rewrite Hl. unfold helper_slot. change (whelp (wlog (TEmit sg p) s)) with (whelp s). rewrite Hh. change (wdev (wlog (TEmit sg p) s)) with (wdev s).
      rewrite Hr by left. assert ((if live sg then wlog (TEmit sg p) s else wlog (TEmit sg p) s) = wlog (TEmit sg p) s) as -> by (by destruct (live sg)).
      change (waw (wlog (TEmit sg p) s)) with (waw s). by rewrite Ha. }
    rewrite (IH _ i h live); [|done..|]. 
    + unfold emitted_by. cbn [map fst snd]. rewrite reverse_cons. unfold wlogs. rewrite <- app_assoc. done.
    + intros sg' p' Hin. apply (Hr sg' p'). by right.
Qed.

Lemma with_helper_called h d1 ems (s0 : wstate) : good s0 -> whelp s0 = None -> hready h (wlogs (called d1 ems) (set_dev d1 (with_helper h s0))) ∧ good (wlogs (called d1 ems) (set_dev d1 (with_helper h s0))).
Proof.
  intros (Hcl & Hu & Hl) Hh. split; [destruct (hready_new h s0 Hcl Hh) as (i & live & H); by exists i, live|]. destruct (with_helper_clean h s0 Hcl Hh). split; [split|]; done.
Qed.
Definition helper_awaiting to (k : option arg -> wprog A) : wprog A := WAwait MQueued FromHelper to (λ r, WDrop (k r)).
Lemma called_step h f d1 ems (p : wprog A) (s0 : wstate) : good s0 -> walive s0 = true -> whelp s0 = None -> f (wdev s0) = (d1, ems) -> (∀ sg a, (sg, a) ∈ ems -> relay h sg a d1 = None) ->
  step (set_co (CRun (calling f p)) (with_helper h s0)) = Next (set_co (CRun p) (wlogs (called d1 ems) (set_dev d1 (with_helper h s0)))).
Proof.
  intros (Hcl & Hu & Hl) Ha Hh Hf Hr. unfold step, calling. cbn. rewrite Hu, Ha, Hf. cbn [fst snd].
  rewrite (emits_unrelayed _ _ (wnext s0) h (λ _, true)); [|apply Hcl|done|done|done]. unfold wlogs, called, emitted_by. cbn. rewrite <- app_assoc. done.
Qed.
Lemma cspec_helper_calling denv h f to d1 ems (s0 : wstate) (U : wub -> list tev -> Prop) (Q : option arg -> list tev -> wstate -> Prop) :
  walive s0 = true -> whelp s0 = None -> (∀ x, leaky h x = false) -> f (wdev s0) = (d1, ems) -> (∀ sg a, (sg, a) ∈ ems -> relay h sg a d1 = None) ->
  (∀ v l s2, helper_wait h d1 to l v -> kept s0 s2 (l ++ called d1 ems) -> (calm h -> behaves denv d1 l) -> Q v (l ++ called d1 ems) s2) ->
  cspec denv s0 (λ k, helper_calling h f to k) U Q.
Proof.
  intros Ha Hh Hlk Hf Hr HQ. unfold helper_calling. apply cspec_good. intros Hg0.
  apply (cspec_step denv s0 (with_helper h s0) _ (λ k, calling f (helper_awaiting to k)) []); [..|apply inside_nil|]; try done.
  { intros (_ & Hu & _) k. by apply with_helper_step. }
  { intros (? & ? & ?). split; [by apply with_helper_clean|done]. }
  apply (cspec_step denv _ (wlogs (called d1 ems) (set_dev d1 (with_helper h s0))) _ (λ k, helper_awaiting to k) (called d1 ems)); [..|apply inside_emitted|]; try done.
  { intros _ k. by apply called_step. }
  { intros _. by apply with_helper_called. }
  apply (cspec_helper_await denv h); [by apply with_helper_called|done|]. intros v l s2 Hw Hh2 Hhi Hb. rewrite app_nil_r. apply HQ.
  - apply (waited_helper h to (wlogs (called d1 ems) (set_dev d1 (with_helper h s0))) s2); done.
  - apply waited_kept in Hw. destruct Hw. split; try done.
    + rewrite ke_dev, dev_after_app. cbn [wdev wlogs set_dev]. f_equal. symmetry. apply dev_after_emitted.
    + intros Hn. apply ke_alive. intros ?. apply Hn, elem_of_app. by left.
    + intros [?|Hd]%elem_of_app; [by apply ke_dead|]. exfalso. exact (emitted_nodestroy ems d1 Hd).
    + rewrite ke_now, elapsed_app. pose proof (elapsed_emitted ems d1 : elapsed (called d1 ems : list tev) = 0) as ->. cbn [wnow wlogs set_dev with_helper set_help set_next]. lia.
  - intros Hc. apply behaves_wait. apply (Hb Hc).
Qed.
Lemma cends_helper_calling denv h f to d1 ems (s0 : wstate) : walive s0 = true -> whelp s0 = None -> f (wdev s0) = (d1, ems) -> (∀ sg a, (sg, a) ∈ ems -> relay h sg a d1 = None) ->
  cends denv s0 (λ k, helper_calling h f to k) (λ l, ∃ l', l = l' ++ called d1 ems ∧ (relays h d1 l' ≠ [] ∨ ∃ n, to = Some n ∧ n ≤ elapsed l')).
Proof.
  intros Ha Hh Hf Hr Hg0. revert Hg0. unfold helper_calling. intros Hg0. revert Hg0.
  assert (Hx : good s0 -> cends denv s0 (λ k : option arg -> wprog A, WHelper h (calling f (WAwait MQueued FromHelper to (λ r, WDrop (k r))))) (λ l, ∃ l', l = l' ++ called d1 ems ∧ (relays h d1 l' ≠ [] ∨ ∃ n, to = Some n ∧ n ≤ elapsed l'))); [|by intros Hg; apply Hx].
  intros Hg0.
  apply (cends_step denv s0 (with_helper h s0) _ (λ k, calling f (helper_awaiting to k))); try done.
  { intros (_ & Hu & _) k. by apply with_helper_step. }
  { intros (? & ? & ?). split; [by apply with_helper_clean|done]. }
  apply (cends_log denv _ (wlogs (called d1 ems) (set_dev d1 (with_helper h s0))) _ (λ k, helper_awaiting to k) (called d1 ems)); try done.
  { intros _ k. by apply called_step. }
  { intros _. by apply with_helper_called. }
  eapply cends_mono; [|by apply cends_helper_await, with_helper_called]. intros l (l' & E & H). apply app_inv_tail in E as <-. exact H.
Qed.

(** ** QWebSocket *)
Lemma cspec_settled_calling {B} denv h f g (settles : sig -> arg -> B -> Prop) to d1 ems (s0 : wstate) (U : wub -> list tev -> Prop) :
  walive s0 = true -> whelp s0 = None -> (∀ x, leaky h x = false) -> direct h -> calm h -> f (wdev s0) = (d1, ems) ->
  (∀ sg a d b v o, relay h sg a d = Some (b, v, o) -> settles sg a (g (Some v))) -> (∀ sg a d r, settles sg a r -> relay h sg a d ≠ None) -> (∀ sg a b, (sg, a) ∈ ems -> ¬ settles sg a b) ->
  cspec denv s0 (λ k : B -> wprog A, helper_calling h f to (λ r, k (g r))) U (λ b l s, ∃ l', l = l' ++ called d1 ems ∧ settled settles (g None) to b l' ∧ kept s0 s l ∧ behaves denv d1 l').
Proof.
  intros Ha Hh Hl Hd Hc Hf H1 H2 H3.
  apply (cspec_bind denv s0 (λ k, helper_calling h f to k) (λ r k, k (g r)) _ (λ v l s, ∃ l', l = l' ++ called d1 ems ∧ settled settles (g None) to (g v) l' ∧ kept s0 s l ∧ behaves denv d1 l')).
  - apply (cspec_helper_calling denv h f to d1 ems); try done.
    { intros sg a Hin. destruct (relay h sg a d1) as [[[b v] o]|] eqn:E; [|done]. by destruct (H3 sg a (g (Some v)) Hin (H1 _ _ _ _ _ _ E)). }
    intros v l s2 Hw Hk Hb. exists l. split; [done|]. split; [by eapply settled_wait|]. split; [done|auto].
  - intros v l s2 _ (l' & -> & ? & [] & ?) _. apply (cspec_ret denv s2 (g v)). intros co. exists l'. split; [done|]. split; [done|]. split; [|done]. split; done.
Qed.
Lemma cends_settled_calling {B} denv h f (g : option arg -> B) (settles : sig -> arg -> B -> Prop) to d1 ems (s0 : wstate) :
  walive s0 = true -> whelp s0 = None -> f (wdev s0) = (d1, ems) ->
  (∀ sg a d b v o, relay h sg a d = Some (b, v, o) -> settles sg a (g (Some v))) -> (∀ sg a d r, settles sg a r -> relay h sg a d ≠ None) -> (∀ sg a b, (sg, a) ∈ ems -> ¬ settles sg a b) ->
  cends denv s0 (λ k : B -> wprog A, helper_calling h f to (λ r, k (g r))) (λ l, ∃ l', l = l' ++ called d1 ems ∧ hw_wait settles to l').
Proof.
  intros Ha Hh Hf H1 H2 H3. apply (cends_then denv s0 (λ k, helper_calling h f to k) (λ r k, k (g r))).
  - eapply cends_mono; [|apply (cends_helper_calling denv h f to d1 ems); try done].
    + intros l (l' & -> & [(sg & a & b & Hin & Hs)|?]); exists l'; (split; [done|]); [left|by right]. eapply relays_some; [exact Hin|].
      intros d'. destruct (relay h sg a d') as [x|] eqn:E; [eauto|]. by destruct (H2 _ _ d' _ Hs).
    + intros sg a Hin. destruct (relay h sg a d1) as [[[b v] o]|] eqn:E; [|done]. by destruct (H3 sg a (g (Some v)) Hin (H1 _ _ _ _ _ _ E)).
  - intros k b s2 Hc Hu. apply imm_done. left. eauto.
Qed.

Lemma cspec_ws_open denv f to d1 ems (s0 : wstate) (U : wub -> list tev -> Prop) : walive s0 = true -> whelp s0 = None -> f (wdev s0) = (d1, ems) ->
  (∀ sg a b, (sg, a) ∈ ems -> ¬ settles_open sg a b) ->
  cspec denv s0 (λ k : bool -> wprog A, ws_open f to k) U (λ b l s, (o_state (wdev s0) = SConnected ∧ b = true ∧ l = []) ∨
    (o_state (wdev s0) ≠ SConnected ∧ ∃ l', l = l' ++ called d1 ems ∧ settled settles_open false to b l')).
Proof.
  intros Ha Hh Hf Hn. unfold ws_open.
  apply (cspec_get denv s0 (λ d k, match o_state d with SConnected => k true | _ => helper_calling open_helper f to (λ r, k (bool_or_false r)) end)); [done|].
  destruct (o_state (wdev s0)) eqn:E; cycle 3.
  { apply (cspec_ret denv s0 true). intros co. by left. }
  all: eapply cspec_mono; [apply (cspec_settled_calling denv open_helper f bool_or_false settles_open to d1 ems); try done; [apply open_direct|apply open_calm|apply open_relay|apply open_relay2]|done|].
  all: intros b l s _ (l' & ? & ? & ?); right; split; [done|]; by exists l'.
Qed.
Lemma cends_ws_open denv f to d1 ems (s0 : wstate) : walive s0 = true -> whelp s0 = None -> f (wdev s0) = (d1, ems) -> (∀ sg a b, (sg, a) ∈ ems -> ¬ settles_open sg a b) ->
  cends denv s0 (λ k : bool -> wprog A, ws_open f to k) (λ l, ∃ l', l = l' ++ called d1 ems ∧ hw_wait settles_open to l').
Proof.
  intros Ha Hh Hf Hn. unfold ws_open.
  apply (cends_get denv s0 (λ d k, match o_state d with SConnected => k true | _ => helper_calling open_helper f to (λ r, k (bool_or_false r)) end)); [done|].
  destruct (o_state (wdev s0)) eqn:E; cycle 3.
  { apply (cends_ret denv s0 true). }
  all: apply cends_settled_calling; try done; [apply open_relay|apply open_relay2].
Qed.
Definition pong_time (r : option arg) : option Z := match r with Some (APong t) => t | _ => None end.
Lemma pong_relay sg a d b v o : relay pong_helper sg a d = Some (b, v, o) -> settles_ping sg a (pong_time (Some v)).
Proof. destruct sg; cbn; try done; [|by intros [= <- <- <-]]. destruct (is_connected a) eqn:E; [done|]. intros [= <- <- <-]. split; [|done]. intros ->. done. Qed.
Lemma pong_relay2 sg a d r : settles_ping sg a r -> relay pong_helper sg a d ≠ None.
Proof. destruct sg; cbn; try done. intros [H ->]. destruct (is_connected a) eqn:E; [|done]. by apply is_connected_spec in E. Qed.
Lemma cspec_ws_ping denv f to d1 ems (s0 : wstate) (U : wub -> list tev -> Prop) : walive s0 = true -> whelp s0 = None -> f (wdev s0) = (d1, ems) ->
  (∀ sg a b, (sg, a) ∈ ems -> ¬ settles_ping sg a b) ->
  cspec denv s0 (λ k : option Z -> wprog A, ws_ping f to k) U (λ b l s, (o_state (wdev s0) ≠ SConnected ∧ b = None ∧ l = []) ∨
    (o_state (wdev s0) = SConnected ∧ ∃ l', l = l' ++ called d1 ems ∧ settled settles_ping None to b l')).
Proof.
  intros Ha Hh Hf Hn. unfold ws_ping.
  apply (cspec_get denv s0 (λ d k, match o_state d with SConnected => helper_calling pong_helper f to (λ r, k (pong_time r)) | _ => k None end)); [done|].
  destruct (o_state (wdev s0)) eqn:E; cycle 3.
  { eapply cspec_mono; [apply (cspec_settled_calling denv pong_helper f pong_time settles_ping to d1 ems); try done; [apply pong_direct|apply pong_calm|apply pong_relay|apply pong_relay2]|done|].
    intros b l s _ (l' & ? & ? & ?); right; split; [done|]; by exists l'. }
  all: apply (cspec_ret denv s0 None); intros co; by left.
Qed.
Lemma cends_ws_ping denv f to d1 ems (s0 : wstate) : walive s0 = true -> whelp s0 = None -> f (wdev s0) = (d1, ems) -> (∀ sg a b, (sg, a) ∈ ems -> ¬ settles_ping sg a b) ->
  cends denv s0 (λ k : option Z -> wprog A, ws_ping f to k) (λ l, ∃ l', l = l' ++ called d1 ems ∧ hw_wait settles_ping to l').
Proof.
  intros Ha Hh Hf Hn. unfold ws_ping.
  apply (cends_get denv s0 (λ d k, match o_state d with SConnected => helper_calling pong_helper f to (λ r, k (pong_time r)) | _ => k None end)); [done|].
  destruct (o_state (wdev s0)) eqn:E; cycle 3.
  { apply cends_settled_calling; try done; [apply pong_relay|apply pong_relay2]. }
  all: apply (cends_ret denv s0 None).
Qed.

(** ** QWebSocketServer: the connection of its helper stays behind, so the rules for call sequences do not apply. *)
Definition conn_of (r : option arg) : option nat := match r with Some (AConn c) => c | _ => None end.
Definition ws_on to (d : qobj) (k : option nat -> wprog A) : wprog A :=
  if negb (o_listening d) then k None else
    match o_pending d with [] => qCoro_helper server_helper to (λ r, k (conn_of r)) | _ :: _ => take_connection k end.
Lemma server_direct : direct server_helper.
Proof. intros sg q d p o. by destruct sg. Qed.
Lemma server_relay sg a d b v o : relay server_helper sg a d = Some (b, v, o) -> (sg = Closed ∧ v = AConn None) ∨ (sg = NewConnection ∧ v = AConn (head (o_pending d))).
Proof. destruct sg; cbn; try done; intros [= <- <- <-]; auto. Qed.
Lemma server_relay2 sg a d : relay server_helper sg a d = None -> sg ≠ Closed ∧ sg ≠ NewConnection.
Proof. by destruct sg. Qed.

Lemma ws_server_wait (s0 s : wstate) to (l : list tev) v : o_listening (wdev s0) = true -> o_pending (wdev s0) = [] -> waited FromHelper to s0 s l v -> helper_hist server_helper (wdev s0) l ->
  next_connection (wdev s0) to (conn_of v) (TResume v :: l ++ [TSusp FromHelper to]).
Proof.
  intros El Ep Hw Hhi. destruct (waited_helper _ _ _ _ _ _ Hw Hhi) as (lw & E & Hq & Hv). apply (inj (cons _)) in E. apply app_inv_tail in E as <-. destruct v as [p|].
  - destruct Hv as [_ Hd]. specialize (Hd server_direct). destruct (relays_head _ _ _ _ Hd) as (sg & a & b & o & l1 & l2 & -> & Hr & Hn).
    assert (Hn2 : ∀ sg a', TEmit sg a' ∈ l2 -> sg ≠ Closed ∧ sg ≠ NewConnection).
    { intros sg' a' (x & y & E)%elem_of_list_split. eapply server_relay2. by eapply (relays_none _ _ _ Hn). }
    destruct (server_relay _ _ _ _ _ _ Hr) as [[-> ->]|[-> ->]]; cbn [conn_of]; [by eapply nw_closed|by eapply nw_client].
  - destruct Hv as (n & l' & -> & -> & Hn). cbn. eapply nw_timeout; try done. intros e He. apply Hq. by right.
Qed.

Lemma call_spec_ws_server denv to (s0 : wstate) : reach denv s0 -> wubs s0 = None -> noleak s0 -> walive s0 = true -> whelp s0 = None ->
  call_spec denv s0 (λ k : option nat -> wprog A, ws_nextPendingConnection to k) (λ _ _, False) (λ c l s, next_connection (wdev s0) to c l).
Proof.
  intros Hr Hu Hl Ha Hh. destruct (o_listening (wdev s0)) eqn:El; [destruct (o_pending (wdev s0)) as [|c cs] eqn:Ep|].
  - intros k s Hc Hx. pose proof (reach_clean _ _ _ Hr Hu Hc) as Hcl.
    set (s1 := set_co (CRun (qCoro_helper server_helper to (λ r, k (conn_of r)))) s0).
    assert (Hst : step s0 = Next s1). { unfold step. rewrite Hu, Hc. unfold ws_nextPendingConnection. rewrite Ha, El, Ep. done. }
    destruct (exec_inv _ _ _ Hx) as [->|[(s1' & Hst' & Hx')|(e & s1' & Hst' & _)]]; [|rewrite Hst in Hst'; injection Hst' as <-|congruence].
    { left. exists []. split; [done|]. split; [apply inside_nil|congruence]. }
    set (s2 := set_co (CRun (helper_awaiting to (λ r, k (conn_of r)))) (with_helper server_helper s0)).
    assert (Hst1 : step s1 = Next s2) by (apply with_helper_step; done).
    destruct (exec_inv _ _ _ Hx') as [->|[(s2' & Hst' & Hx2)|(e & s2' & Hst' & _)]]; [|rewrite Hst1 in Hst'; injection Hst' as <-|congruence].
    { left. exists []. split; [done|]. split; [apply inside_nil|]. intros u. change (wubs s1) with (wubs s0). congruence. }
    destruct (helper_await_exec denv server_helper to (λ r, k (conn_of r)) (with_helper server_helper s0) s) as [(l & Ht & Hi & Hus)|(s3 & l & v & Hx3 & Hx4 & Hc3 & _ & Hu3 & Ht3 & Hq & Hh3 & _ & Hw & Hhi & _)];
      [by apply with_helper_clean|done|done|by apply hready_new|done|..].
    + left. exists l. split; [done|]. split; [done|]. congruence.
    + right. exists s3, (TResume v :: l ++ [TSusp FromHelper to]), (conn_of v). split; [eapply exec_trans; [|exact Hx3]; eapply exec_step; [eapply exec_step; [constructor|exact Hst]|exact Hst1]|].
      split; [done|]. split; [done|]. split; [done|]. split; [done|]. split.
      { apply inside_cons; [done|]. apply inside_app; [by apply quiet_inside|]. apply inside_cons; [done|apply inside_nil]. }
      apply (ws_server_wait s0 s3); try done. by apply waited_with_helper in Hw.
  - apply cspec_call; try done. apply (cspec_get denv s0 (ws_on to)); [done|]. unfold ws_on. rewrite El, Ep. cbn [negb].
    apply cspec_take; [congruence|]. intros _ co d2. rewrite Ep. unfold d2. rewrite Ep. by apply (nw_pending (wdev s0) to c cs).
  - apply cspec_call; try done. apply (cspec_get denv s0 (ws_on to)); [done|]. unfold ws_on. rewrite El. cbn [negb].
    apply (cspec_ret denv s0 None). intros co. by apply nw_deaf.
Qed.
Lemma cends_ws_server denv to (s0 : wstate) : walive s0 = true -> whelp s0 = None ->
  cends denv s0 (λ k : option nat -> wprog A, ws_nextPendingConnection to k) (λ l, (∃ sg a, TEmit sg a ∈ l ∧ (sg = Closed ∨ sg = NewConnection)) ∨ ∃ n, to = Some n ∧ n ≤ elapsed l).
Proof.
  intros Ha Hh. apply (cends_get denv s0 (ws_on to)); [done|]. unfold ws_on. destruct (o_listening (wdev s0)) eqn:El; cbn [negb]; [|apply (cends_ret denv s0 None)].
  destruct (o_pending (wdev s0)) as [|c cs] eqn:Ep.
  - apply (cends_then denv s0 (λ k, qCoro_helper server_helper to k) (λ r k, k (conn_of r))).
    + eapply cends_mono; [|by apply cends_helper]. intros l [(sg & a & Hin & Hs)|?]; [left|by right]. eapply relays_some; [exact Hin|]. intros d'. destruct Hs as [-> | ->]; cbn; eauto.
    + intros k b s2 Hc Hu. apply imm_done. left. eauto.
  - apply cends_imm. intros k (_ & Hu & _). unfold take_connection. eapply imm_step; [unfold step; cbn; rewrite Hu, Ha; reflexivity|]. apply imm_done. left. cbn. eauto.
Qed.

(** ** Waits that never end *)

(** The object emits nothing but signals in [OK]. *)
Definition emits_only (OK : sig -> arg -> Prop) (denv : qobj -> list (sig * arg) -> qobj -> Prop) : Prop := ∀ d ems d' sg p, denv d ems d' -> (sg, p) ∈ ems -> OK sg p.

(** A wait for a signal the object does not emit any more. *)
Lemma signalled_hangs (OK : sig -> arg -> Prop) denv sg (k : bool -> wprog A) (s0 s : wstate) : emits_only OK denv -> (∀ a, ¬ OK sg a) -> (∀ sg' p, (sg', p) ∈ wtodo s0 -> OK sg' p) ->
  wco s0 = CRun (signalled sg None k) -> wubs s0 = None -> noleak s0 -> clean s0 -> walive s0 = true -> whelp s0 = None -> exec denv s0 s ->
  s = s0 ∨ ∃ l, wtrace s = l ++ TSusp (FromDev (only sg)) None :: wtrace s0 ∧ quiet l ∧ wubs s = None.
Proof.
  intros HOK Hno Htd Hc Hu Hl Hcl Ha Hh Hx. set (kk := λ r : option arg, k (has_value r)).
  set (s1 := wlog (TSusp (FromDev (only sg)) None) (set_co (CSusp kk) (set_next (S (wnext s0)) (set_aw (Some (Awaiter (wnext s0) (FromDev (only sg)) MQueued true None true None)) s0)))).
  assert (Hst : step s0 = Next s1). { unfold step. rewrite Hu, Hc. cbn. by rewrite Ha. }
  destruct (exec_inv _ _ _ Hx) as [->|[(s1' & Hst' & Hx')|(e & s1' & Hst' & _)]]; [by left|rewrite Hst in Hst'; injection Hst' as <-|congruence].
  right. destruct (stuck_exec OK denv s1 s HOK) as [Hs (l & Ht & Hq)]; [|done|].
  - split; try done.
    + by exists kk.
    + change (wposted s1) with (wposted s0). destruct (hready_new open_helper s0 Hcl Hh) as (_ & _ & _ & _ & Hr). change (wposted (with_helper open_helper s0)) with (wposted s0) in Hr.
      destruct Hcl. destruct (wposted s0) as [|[] ?]; done.
    + apply Hcl.
    + eexists. split; [done|]. split; [done|]. cbn. intros sg' p Hok _. unfold only. case_decide; [|done]. subst. by destruct (Hno p).
    + intros i h live sg' p d. change (whelp s1) with (whelp s0). rewrite Hh. done.
  - exists l. split; [done|]. split; [done|]. apply Hs.
Qed.

Lemma posted_nil (s0 : wstate) : clean s0 -> whelp s0 = None -> wposted s0 = [].
Proof.
  intros Hcl Hh. destruct (hready_new open_helper s0 Hcl Hh) as (_ & _ & _ & _ & Hr). change (wposted (with_helper open_helper s0)) with (wposted s0) in Hr.
  destruct Hcl. destruct (wposted s0) as [|[] ?]; done.
Qed.
(** A wait for a helper to whose slots nothing happens any more. *)
Lemma awaiting_hangs (OK : sig -> arg -> Prop) denv h i live (k : option arg -> wprog A) (s0 s : wstate) : emits_only OK denv -> (∀ sg' p, (sg', p) ∈ wtodo s0 -> OK sg' p) ->
  (∀ sg a d, OK sg a -> live sg = true -> relay h sg a d = None) ->
  wubs s0 = None -> noleak s0 -> wposted s0 = [] -> wshots s0 = 0 -> whelp s0 = Some (i, h, live) -> exec denv (set_co (CRun (helper_awaiting None k)) s0) s ->
  ∃ l, wtrace s = l ++ wtrace s0 ∧ inside l ∧ wubs s = None.
Proof.
  intros HOK Htd Hno Hu Hl Hp Hsh Hh Hx. set (kk := λ r : option arg, WDrop (k r)). set (si := set_co (CRun (helper_awaiting None k)) s0) in *.
  set (s1 := wlog (TSusp FromHelper None) (set_co (CSusp kk) (set_next (S (wnext s0)) (set_aw (Some (Awaiter (wnext s0) FromHelper MQueued true None true None)) s0)))).
  assert (Hst : step si = Next s1). { unfold step. change (wubs si) with (wubs s0). rewrite Hu. cbn. by rewrite Hh. }
  destruct (exec_inv _ _ _ Hx) as [->|[(s1' & Hst' & Hx')|(e & s1' & Hst' & _)]]; [|rewrite Hst in Hst'; injection Hst' as <-|congruence].
  { exists []. split; [done|]. split; [apply inside_nil|done]. }
  destruct (stuck_exec OK denv s1 s HOK) as [Hs (l & Ht & Hq)]; [|done|].
  - split; try done.
    + by exists kk.
    + by eexists.
    + intros i' h' live' sg' p d. change (whelp s1) with (whelp s0). rewrite Hh. intros [= <- <- <-]. apply Hno.
  - exists (l ++ [TSusp FromHelper None]). split; [by rewrite Ht, <- app_assoc|]. split; [|apply Hs]. apply inside_app; [by apply quiet_inside|]. apply inside_cons; [done|apply inside_nil].
Qed.

(** Emissions during a call after the helper's connections are cut. *)
Lemma emits_cut ems : ∀ (s : wstate) i h live, waw s = None -> whelp s = Some (i, h, live) -> noleak s -> (∀ x, live x = false) ->
  foldl (λ s e, emit (fst e) (snd e) s) s ems = wlogs (emitted_by ems) s.
Proof.
  induction ems as [|[sg p] ems IH]; intros s i h live Ha Hh Hl Hr.
  - by destruct s.
  - cbn [foldl fst snd]. assert (emit sg p s = wlog (TEmit sg p) s) as ->.
    { unfold emit. rewrite Hl. unfold helper_slot. change (whelp (wlog (TEmit sg p) s)) with (whelp s). rewrite Hh, Hr. change (waw (wlog (TEmit sg p) s)) with (waw s). by rewrite Ha. }
    rewrite (IH _ i h live); [|done..]. unfold emitted_by. cbn [map fst snd]. rewrite reverse_cons. unfold wlogs. rewrite <- app_assoc. done.
Qed.
(** A signal that settles the matter comes during the call: the connections of the helper are cut, nobody listened to it. *)
Lemma emits_lost ems : ∀ (s : wstate) i h live, waw s = None -> whelp s = Some (i, h, live) -> noleak s -> direct h -> calm h -> (∀ x y, keeps h x y = false) -> (∀ x, live x = true) ->
  (∃ sg a, (sg, a) ∈ ems ∧ ∀ d, relay h sg a d ≠ None) ->
  ∃ l live', foldl (λ s e, emit (fst e) (snd e) s) s ems = wlogs l (set_help (Some (i, h, live')) s) ∧ inside l ∧ ∀ x, live' x = false.
Proof.
  induction ems as [|[sg p] ems IH]; intros s i h live Ha Hh Hl Hd Hc Hk Hlv (sg1 & a1 & Hin & Hr1); [by apply elem_of_nil in Hin|].
  cbn [foldl fst snd]. destruct (relay h sg p (wdev s)) as [[[b v] o]|] eqn:Er.
  - destruct b; [by apply Hd in Er|]. destruct o as [d'|]; [by apply Hc in Er|].
    set (lv := λ x, live x && keeps h sg x).
    assert (Hlv' : ∀ x, lv x = false) by (intros x; unfold lv; by rewrite Hk, andb_false_r).
    assert (emit sg p s = wlog (TReady v) (set_help (Some (i, h, lv)) (wlog (TEmit sg p) s))) as ->.
    { unfold emit. rewrite Hl. unfold helper_slot. change (whelp (wlog (TEmit sg p) s)) with (whelp s). rewrite Hh, Hlv. change (wdev (wlog (TEmit sg p) s)) with (wdev s). rewrite Er.
      unfold ready. change (whelp (wlog (TEmit sg p) s)) with (whelp s). rewrite Hh. fold lv. cbv zeta. change (waw (wlog (TReady v) (set_help (Some (i, h, lv)) (wlog (TEmit sg p) s)))) with (waw s). rewrite Ha. change (waw (wlog (TReady v) (set_help (Some (i, h, lv)) (wlog (TEmit sg p) s)))) with (waw s). rewrite Ha. done. }
    rewrite (emits_cut _ _ i h lv); [|done..]. exists (emitted_by ems ++ [TReady v; TEmit sg p]), lv. split; [unfold wlogs; cbn; by rewrite <- app_assoc|]. split; [|done].
    apply inside_app; [|apply inside_cons; [done|]; apply inside_cons; [done|apply inside_nil]]. intros e. unfold emitted_by. rewrite elem_of_reverse. intros ([??] & -> & _)%elem_of_list_fmap. done.
  - assert (emit sg p s = wlog (TEmit sg p) s) as ->.
    { unfold emit. rewrite Hl. unfold helper_slot. change (whelp (wlog (TEmit sg p) s)) with (whelp s). rewrite Hh, Hlv. change (wdev (wlog (TEmit sg p) s)) with (wdev s). rewrite Er.
      change (waw (wlog (TEmit sg p) s)) with (waw s). by rewrite Ha. }
    destruct (IH (wlog (TEmit sg p) s) i h live) as (l & live' & -> & Hi & Hl'); try done.
    + exists sg1, a1. split; [|done]. apply elem_of_cons in Hin as [[= -> ->]|?]; [|done]. by destruct (Hr1 (wdev s)).
    + exists (l ++ [TEmit sg p]), live'. split; [unfold wlogs; cbn; by rewrite <- app_assoc|]. split; [|done]. apply inside_app; [done|]. apply inside_cons; [done|apply inside_nil].
Qed.

Lemma open_lost denv f d1 ems (k : bool -> wprog A) (s0 s : wstate) : reach denv s0 -> wubs s0 = None -> noleak s0 -> walive s0 = true -> whelp s0 = None ->
  o_state (wdev s0) ≠ SConnected -> f (wdev s0) = (d1, ems) -> (∃ sg a b, (sg, a) ∈ ems ∧ settles_open sg a b) ->
  wco s0 = CRun (ws_open f None k) -> exec denv s0 s -> ∃ l, wtrace s = l ++ wtrace s0 ∧ inside l ∧ wubs s = None.
Proof.
  intros Hr Hu Hl Ha Hh Hns Hf (sg & a & b & Hin & Hse) Hc Hx. pose proof (reach_clean _ _ _ Hr Hu Hc) as Hcl. set (kk := λ r, k (bool_or_false r)).
  set (s1 := set_co (CRun (helper_calling open_helper f None kk)) s0).
  assert (Hst : step s0 = Next s1). { unfold step. rewrite Hu, Hc. unfold ws_open. rewrite Ha. by destruct (o_state (wdev s0)). }
  destruct (exec_inv _ _ _ Hx) as [->|[(s1' & Hst' & Hx')|(e & s1' & Hst' & _)]]; [|rewrite Hst in Hst'; injection Hst' as <-|congruence].
  { exists []. split; [done|]. split; [apply inside_nil|done]. }
  set (s2 := set_co (CRun (calling f (helper_awaiting None kk))) (with_helper open_helper s0)).
  assert (Hst1 : step s1 = Next s2) by (apply with_helper_step; done).
  destruct (exec_inv _ _ _ Hx') as [->|[(s2' & Hst' & Hx2)|(e & s2' & Hst' & _)]]; [|rewrite Hst1 in Hst'; injection Hst' as <-|congruence].
  { exists []. split; [done|]. split; [apply inside_nil|done]. }
  set (sm := wlog (TDev d1) (set_dev d1 (set_co (CRun (helper_awaiting None kk)) (with_helper open_helper s0)))).
  destruct (emits_lost ems sm (wnext s0) open_helper (λ _, true)) as (l & live' & El & Hi & Hlv); try done; [apply Hcl|apply open_direct|apply open_calm| |].
  { exists sg, a. split; [done|]. intros d. by eapply open_relay2. }
  set (s3 := wlogs l (set_help (Some (wnext s0, open_helper, live')) sm)) in *.
  assert (Hst2 : step s2 = Next s3). { unfold step. change (wubs s2) with (wubs s0). rewrite Hu. unfold s2, calling. cbn [wco set_co]. change (walive _) with (walive s0). rewrite Ha. change (wdev _) with (wdev s0). rewrite Hf. cbn [fst snd]. exact (f_equal Next El). }
  destruct (exec_inv _ _ _ Hx2) as [->|[(s3' & Hst' & Hx3)|(e & s3' & Hst' & _)]]; [|rewrite Hst2 in Hst'; injection Hst' as <-|congruence].
  { exists []. split; [done|]. split; [apply inside_nil|done]. }
  destruct (awaiting_hangs (λ _ _, True) denv open_helper (wnext s0) live' kk s3 s) as (l' & Ht & Hi' & Hus); try done.
  - intros sg' a' d' _ E. by rewrite Hlv in E.
  - change (wposted s3) with (wposted s0). by apply posted_nil.
  - apply Hcl.
  - exists (l' ++ l ++ [TDev d1]). split; [rewrite Ht; change (wtrace s3) with (l ++ [TDev d1] ++ wtrace s0); by rewrite <- !app_assoc|]. split; [|done].
    apply inside_app; [done|]. apply inside_app; [done|]. apply inside_cons; [done|apply inside_nil].
Qed.

(** QLocalSocket::connectToServer(): the attempt is over when the call returns. *)
Lemma local_late (OK : sig -> arg -> Prop) denv f d1 ems (k : bool -> wprog A) (s0 s : wstate) : emits_only OK denv -> (∀ sg a b, OK sg a -> ¬ settles_local sg a b) ->
  (∀ sg' p, (sg', p) ∈ wtodo s0 -> OK sg' p) ->
  reach denv s0 -> wubs s0 = None -> noleak s0 -> walive s0 = true -> whelp s0 = None -> f (wdev s0) = (d1, ems) -> o_state d1 ≠ SConnected ->
  wco s0 = CRun (local_connectToServer f None k) -> exec denv s0 s -> ∃ l, wtrace s = l ++ wtrace s0 ∧ inside l ∧ wubs s = None.
Proof.
  intros HOK Hno Htd Hr Hu Hl Ha Hh Hf Hns Hc Hx. pose proof (reach_clean _ _ _ Hr Hu Hc) as Hcl. set (kk := λ r, k (bool_or_false r)).
  set (s1 := wlogs (emitted_by ems) (wlog (TDev d1) (set_dev d1 (set_co (CRun (local_waitForConnected None k)) s0)))).
  assert (Hst : step s0 = Next s1). { unfold step. rewrite Hu, Hc. unfold local_connectToServer, calling. rewrite Ha, Hf. cbn [fst snd]. rewrite emits_logged; [done|apply Hcl|done|done]. }
  destruct (exec_inv _ _ _ Hx) as [->|[(s1' & Hst' & Hx')|(e & s1' & Hst' & _)]]; [|rewrite Hst in Hst'; injection Hst' as <-|congruence].
  { exists []. split; [done|]. split; [apply inside_nil|done]. }
  assert (Ht1 : wtrace s1 = called d1 ems ++ wtrace s0) by (unfold called; cbn; by rewrite <- app_assoc).
  assert (Hi1 : inside (called d1 ems : list tev)) by apply inside_emitted.
  set (s2 := set_co (CRun (qCoro_helper connected_helper None kk)) s1).
  assert (Hst1 : step s1 = Next s2). { unfold step. change (wubs s1) with (wubs s0). rewrite Hu. unfold s1. cbn. rewrite Ha. by destruct (o_state d1). }
  destruct (exec_inv _ _ _ Hx') as [->|[(s2' & Hst' & Hx2)|(e & s2' & Hst' & _)]]; [|rewrite Hst1 in Hst'; injection Hst' as <-|congruence].
  { by exists (called d1 ems). }
  set (s3 := set_co (CRun (helper_awaiting None kk)) (with_helper connected_helper s2)).
  assert (Hst2 : step s2 = Next s3) by (unfold step; change (wubs s2) with (wubs s0); rewrite Hu; unfold s2; cbn; rewrite Ha, Hh; done).
  destruct (exec_inv _ _ _ Hx2) as [->|[(s3' & Hst' & Hx3)|(e & s3' & Hst' & _)]]; [|rewrite Hst2 in Hst'; injection Hst' as <-|congruence].
  { by exists (called d1 ems). }
  destruct (awaiting_hangs OK denv connected_helper (wnext s2) (λ _, true) kk (with_helper connected_helper s2) s) as (l' & Ht & Hi' & Hus); try done.
  - intros sg a d Hok _. destruct (relay connected_helper sg a d) as [[[b v] o]|] eqn:E; [|done]. by destruct (Hno sg a _ Hok (local_relay _ _ _ _ _ _ E)).
  - change (wposted (with_helper connected_helper s2)) with (wposted s0). by apply posted_nil.
  - apply Hcl.
  - exists (l' ++ called d1 ems). split; [rewrite Ht; change (wtrace (with_helper connected_helper s2)) with (wtrace s1); by rewrite Ht1, <- app_assoc|]. split; [|done]. by apply inside_app.
Qed.
End facts.
