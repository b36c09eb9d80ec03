(** * Facts about the wrappers of QtNet.v. *)
From stdpp Require Import list.
From Coq Require Import ZArith.
From Verif Require Import QtModel QtSpec QtInv QtAwait QtReach QtWrap QtTrace QtBehave QtCall QtEnds QtCall2 QtEnds2 QtObj QtIO QtIOFacts QtIOEnds QtNet QtNetSpec QtStuck.

Section facts.
Context {O A : Type}.
Notation wstate := (@wstate qobj sig arg O A).
Notation wprog := (@wprog qobj sig arg O).
Notation tev := (@tev qobj sig arg O A).
#[local] Arguments relays : simpl never.
#[local] Arguments emissions : simpl never.

Lemma first_emission m (l : list tev) p : head (emissions (FromDev m) l) = Some p ->
  ∃ sg a l1 l2, l = l1 ++ TEmit sg a :: l2 ∧ m sg a = Some p ∧ ∀ sg' a', TEmit sg' a' ∈ l2 -> m sg' a' = None.
Proof.
  induction l as [|e l IH]; [done|]. rewrite emissions_cons. destruct (emissions (FromDev m) l) as [|q r] eqn:Er.
  - cbn. destruct e as [|sg a| | | | | | | | |]; try done. destruct (m sg a) as [p'|] eqn:E; [|done]. cbn. intros [= ->]. exists sg, a, [], l. split; [done|]. split; [done|].
    intros sg' a' Hin. destruct (m sg' a') as [q|] eqn:Eq; [|done]. exfalso.
    assert (Hi : q ∈ emissions (FromDev m) l) by (apply elem_of_list_omap; exists (TEmit sg' a'); rewrite elem_of_reverse; done). rewrite Er in Hi. by apply elem_of_nil in Hi.
  - cbn. intros Hp. destruct (IH Hp) as (sg & a & l1 & l2 & -> & ?). exists sg, a, (e :: l1), l2. done.
Qed.
Lemma only_some sg sg' a p : only sg sg' a = Some p <-> sg' = sg ∧ a = p.
Proof. unfold only. case_decide; naive_solver. Qed.
Lemma first_only sg (l : list tev) p : head (emissions (FromDev (only sg)) l) = Some p -> ∃ l1 l2, l = l1 ++ TEmit sg p :: l2 ∧ ∀ a', TEmit sg a' ∉ l2.
Proof.
  intros H. destruct (first_emission _ _ _ H) as (sg' & a & l1 & l2 & -> & Hm & Hn). apply only_some in Hm as [-> ->]. exists l1, l2. split; [done|].
  intros a' Hin. specialize (Hn _ _ Hin). unfold only in Hn. by rewrite decide_True in Hn.
Qed.
Lemma emitted_only sg (l : list tev) a : TEmit sg a ∈ l -> emissions (FromDev (only sg)) l ≠ [].
Proof.
  intros Hin He. assert (Hi : a ∈ emissions (FromDev (only sg)) l).
  { apply elem_of_list_omap. exists (TEmit sg a). rewrite elem_of_reverse. split; [done|]. cbn. unfold only. by rewrite decide_True. }
  rewrite He in Hi. by apply elem_of_nil in Hi.
Qed.

(** ** Waits for one signal of the object *)
Definition sw_spec (denv : qobj -> list (sig * arg) -> qobj -> Prop) (sg : sig) (yes no : Prop) (to : option nat) (s0 : wstate) (b : bool) (l : list tev) (s : wstate) : Prop :=
  decided sg yes no to b l ∧ kept s0 s l ∧ (whelp s0 = None -> behaves denv (wdev s0) l).
Lemma cspec_signalled denv sg (yes no : Prop) to (s0 : wstate) (U : wub -> list tev -> Prop) : ¬ yes -> ¬ no -> walive s0 = true ->
  cspec denv s0 (λ k : bool -> wprog A, signalled sg to k) U (sw_spec denv sg yes no to s0).
Proof.
  intros Hy Hn Ha. unfold signalled, qCoro_timeout.
  apply (cspec_bind denv s0 (λ k, WAwait MQueued (FromDev (only sg)) to k) (λ r k, k (has_value r)) _
    (λ v l s, sw_spec denv sg yes no to s0 (has_value v) l s)).
  - apply cspec_await; [done|by intros []|]. intros v l s2 Hw Hb. split; [|split; [by apply waited_kept|]].
    + pose proof Hw as []. destruct v as [p|]; cbn.
      * destruct wd_res as [Hhd Hex]. destruct (first_only _ _ _ Hhd) as (l1 & l2 & -> & Hn2). by apply dc_signal.
      * destruct wd_res as (n & l' & ? & -> & ? & ? & ?). eapply dc_timeout; try done. intros e He. apply wd_quiet. by right.
    + intros Hh. apply behaves_wait, Hb. intros i h live E. congruence.
  - intros v l s2 _ H _. apply (cspec_ret denv s2 (has_value v)). intros co. destruct H as (H1 & H2 & H3). split; [done|]. split; [|done].
    destruct H2. split; done.
Qed.
Lemma sw_now denv sg (yes no : Prop) to (s0 : wstate) (b : bool) co : (if b then yes else ¬ yes ∧ no) -> sw_spec denv sg yes no to s0 b [] (set_co co s0).
Proof. intros H. split; [|split; [apply kept_refl|intros _; apply behaves_nil]]. destruct b; [by apply dc_yes|by destruct H; apply dc_no]. Qed.

Definition sw_wait sg (to : option nat) (l : list tev) : Prop := (∃ a, TEmit sg a ∈ l) ∨ ∃ n, to = Some n ∧ n ≤ elapsed l ∧ TDestroy ∉ l.
Lemma cends_signalled denv sg to (s0 : wstate) : walive s0 = true -> cends denv s0 (λ k : bool -> wprog A, signalled sg to k) (sw_wait sg to).
Proof.
  intros Ha. unfold signalled, qCoro_timeout. apply (cends_then denv s0 (λ k, WAwait MQueued (FromDev (only sg)) to k) (λ r k, k (has_value r))).
  - eapply cends_mono; [|by apply cends_await]. intros l [[a Hin]|?]; [left|by right]. by eapply emitted_only.
  - intros k b s2 Hc Hu. apply imm_done. left. eauto.
Qed.

Ltac now_ b := apply (cspec_ret _ _ b); intros ?; apply sw_now.
Ltac get_ s0 := apply (cspec_get _ s0); [done|].
Lemma cspec_sock_connected denv to (s0 : wstate) (U : wub -> list tev -> Prop) : walive s0 = true ->
  cspec denv s0 (λ k : bool -> wprog A, sock_waitForConnected to k) U (sw_spec denv Connected (o_state (wdev s0) = SConnected) False to s0).
Proof.
  intros Ha. unfold sock_waitForConnected. apply (cspec_get denv s0 (λ d k, match o_state d with SConnected => k true | _ => signalled Connected to k end)); [done|].
  destruct (o_state (wdev s0)) eqn:E; try (apply cspec_signalled; [done|by intros []|done]). by now_ true.
Qed.
Lemma cends_sock_connected denv to (s0 : wstate) : walive s0 = true -> cends denv s0 (λ k : bool -> wprog A, sock_waitForConnected to k) (sw_wait Connected to).
Proof.
  intros Ha. unfold sock_waitForConnected. apply (cends_get denv s0 (λ d k, match o_state d with SConnected => k true | _ => signalled Connected to k end)); [done|].
  destruct (o_state (wdev s0)) eqn:E; try (by apply cends_signalled). apply (cends_ret denv s0 true).
Qed.
Lemma cspec_sock_disconnected denv to (s0 : wstate) (U : wub -> list tev -> Prop) : walive s0 = true ->
  cspec denv s0 (λ k : bool -> wprog A, sock_waitForDisconnected to k) U (sw_spec denv Disconnected False (o_state (wdev s0) = Unconnected) to s0).
Proof.
  intros Ha. unfold sock_waitForDisconnected. apply (cspec_get denv s0 (λ d k, match o_state d with Unconnected => k false | _ => signalled Disconnected to k end)); [done|].
  destruct (o_state (wdev s0)) eqn:E; try (apply cspec_signalled; [by intros []|done|done]). now_ false. split; [by intros []|done].
Qed.
Lemma cends_sock_disconnected denv to (s0 : wstate) : walive s0 = true -> cends denv s0 (λ k : bool -> wprog A, sock_waitForDisconnected to k) (sw_wait Disconnected to).
Proof.
  intros Ha. unfold sock_waitForDisconnected. apply (cends_get denv s0 (λ d k, match o_state d with Unconnected => k false | _ => signalled Disconnected to k end)); [done|].
  destruct (o_state (wdev s0)) eqn:E; try (by apply cends_signalled). apply (cends_ret denv s0 false).
Qed.
Lemma cspec_reply_finished denv to (s0 : wstate) (U : wub -> list tev -> Prop) : walive s0 = true ->
  cspec denv s0 (λ k : bool -> wprog A, reply_waitForFinished to k) U (sw_spec denv Finished (o_finished (wdev s0) = true) False to s0).
Proof.
  intros Ha. unfold reply_waitForFinished. apply (cspec_get denv s0 (λ d k, if o_finished d then k true else signalled Finished to k)); [done|].
  destruct (o_finished (wdev s0)) eqn:E; [by now_ true|]. apply cspec_signalled; [done|by intros []|done].
Qed.
Lemma cends_reply_finished denv to (s0 : wstate) : walive s0 = true -> cends denv s0 (λ k : bool -> wprog A, reply_waitForFinished to k) (sw_wait Finished to).
Proof.
  intros Ha. unfold reply_waitForFinished. apply (cends_get denv s0 (λ d k, if o_finished d then k true else signalled Finished to k)); [done|].
  destruct (o_finished (wdev s0)) eqn:E; [apply (cends_ret denv s0 true)|]. by apply cends_signalled.
Qed.
Lemma cspec_proc_started denv to (s0 : wstate) (U : wub -> list tev -> Prop) : walive s0 = true ->
  cspec denv s0 (λ k : bool -> wprog A, proc_waitForStarted to k) U (sw_spec denv Started (o_proc (wdev s0) = Running) (o_proc (wdev s0) = NotRunning) to s0).
Proof.
  intros Ha. unfold proc_waitForStarted.
  apply (cspec_get denv s0 (λ d k, match o_proc d with Starting => signalled Started to k | _ => WGet (λ d', k match o_proc d' with Running => true | _ => false end) end)); [done|].
  destruct (o_proc (wdev s0)) eqn:E.
  - apply (cspec_get denv s0 (λ d' k, k match o_proc d' with Running => true | _ => false end)); [done|]. rewrite E. by now_ false.
  - apply cspec_signalled; done.
  - apply (cspec_get denv s0 (λ d' k, k match o_proc d' with Running => true | _ => false end)); [done|]. rewrite E. by now_ true.
Qed.
Lemma cends_proc_started denv to (s0 : wstate) : walive s0 = true -> cends denv s0 (λ k : bool -> wprog A, proc_waitForStarted to k) (sw_wait Started to).
Proof.
  intros Ha. unfold proc_waitForStarted.
  apply (cends_get denv s0 (λ d k, match o_proc d with Starting => signalled Started to k | _ => WGet (λ d', k match o_proc d' with Running => true | _ => false end) end)); [done|].
  destruct (o_proc (wdev s0)) eqn:E; [|by apply cends_signalled|];
    (apply (cends_get denv s0 (λ d' k, k match o_proc d' with Running => true | _ => false end)); [done|]; apply (cends_ret denv s0)).
Qed.
Lemma cspec_proc_finished denv to (s0 : wstate) (U : wub -> list tev -> Prop) : walive s0 = true ->
  cspec denv s0 (λ k : bool -> wprog A, proc_waitForFinished to k) U (sw_spec denv Finished False (o_proc (wdev s0) = NotRunning) to s0).
Proof.
  intros Ha. unfold proc_waitForFinished. apply (cspec_get denv s0 (λ d k, match o_proc d with NotRunning => k false | _ => signalled Finished to k end)); [done|].
  destruct (o_proc (wdev s0)) eqn:E; try (apply cspec_signalled; [by intros []|done|done]). now_ false. split; [by intros []|done].
Qed.
Lemma cends_proc_finished denv to (s0 : wstate) : walive s0 = true -> cends denv s0 (λ k : bool -> wprog A, proc_waitForFinished to k) (sw_wait Finished to).
Proof.
  intros Ha. unfold proc_waitForFinished. apply (cends_get denv s0 (λ d k, match o_proc d with NotRunning => k false | _ => signalled Finished to k end)); [done|].
  destruct (o_proc (wdev s0)) eqn:E; try (by apply cends_signalled). apply (cends_ret denv s0 false).
Qed.
Lemma cspec_thread_started denv to (s0 : wstate) (U : wub -> list tev -> Prop) : walive s0 = true ->
  cspec denv s0 (λ k : bool -> wprog A, thread_waitForStarted to k) U (sw_spec denv Started (o_running (wdev s0) = true) (o_finished (wdev s0) = true) to s0).
Proof.
  intros Ha. unfold thread_waitForStarted. apply (cspec_get denv s0 (λ d k, if o_running d then k true else if o_finished d then k false else signalled Started to k)); [done|].
  destruct (o_running (wdev s0)) eqn:E; [by now_ true|]. destruct (o_finished (wdev s0)) eqn:E2; [by now_ false|]. by apply cspec_signalled.
Qed.
Lemma cends_thread_started denv to (s0 : wstate) : walive s0 = true -> cends denv s0 (λ k : bool -> wprog A, thread_waitForStarted to k) (sw_wait Started to).
Proof.
  intros Ha. unfold thread_waitForStarted. apply (cends_get denv s0 (λ d k, if o_running d then k true else if o_finished d then k false else signalled Started to k)); [done|].
  destruct (o_running (wdev s0)) eqn:E; [apply (cends_ret denv s0 true)|]. destruct (o_finished (wdev s0)) eqn:E2; [apply (cends_ret denv s0 false)|]. by apply cends_signalled.
Qed.
Lemma cspec_thread_finished denv to (s0 : wstate) (U : wub -> list tev -> Prop) : walive s0 = true ->
  cspec denv s0 (λ k : bool -> wprog A, thread_waitForFinished to k) U (sw_spec denv Finished (o_finished (wdev s0) = true) (o_running (wdev s0) = false) to s0).
Proof.
  intros Ha. unfold thread_waitForFinished. apply (cspec_get denv s0 (λ d k, if o_finished d then k true else if negb (o_running d) then k false else signalled Finished to k)); [done|].
  destruct (o_finished (wdev s0)) eqn:E; [by now_ true|]. destruct (o_running (wdev s0)) eqn:E2; cbn; [by apply cspec_signalled|]. by now_ false.
Qed.
Lemma cends_thread_finished denv to (s0 : wstate) : walive s0 = true -> cends denv s0 (λ k : bool -> wprog A, thread_waitForFinished to k) (sw_wait Finished to).
Proof.
  intros Ha. unfold thread_waitForFinished. apply (cends_get denv s0 (λ d k, if o_finished d then k true else if negb (o_running d) then k false else signalled Finished to k)); [done|].
  destruct (o_finished (wdev s0)) eqn:E; [apply (cends_ret denv s0 true)|]. destruct (o_running (wdev s0)) eqn:E2; cbn; [by apply cends_signalled|]. apply (cends_ret denv s0 false).
Qed.

(** ** A function of the object is called first *)
Lemma cspec_calling {B} denv f (p : (B -> wprog A) -> wprog A) (s0 : wstate) (U : wub -> list tev -> Prop) (Q : B -> list tev -> wstate -> Prop) d1 ems :
  walive s0 = true -> whelp s0 = None -> f (wdev s0) = (d1, ems) ->
  cspec denv (wlogs (called d1 ems) (set_dev d1 s0)) p (λ u l, U u (l ++ called d1 ems)) (λ b l s, Q b (l ++ called d1 ems) s) ->
  cspec denv s0 (λ k, calling f (p k)) U Q.
Proof.
  intros Ha Hh Hf H. unfold calling. apply (cspec_call_emits denv s0 f (λ _ k, p k)); [done|done|]. rewrite Hf. exact H.
Qed.
Lemma cends_calling {B} denv f (p : (B -> wprog A) -> wprog A) (s0 : wstate) (W : list tev -> Prop) d1 ems :
  walive s0 = true -> whelp s0 = None -> f (wdev s0) = (d1, ems) ->
  cends denv (wlogs (called d1 ems) (set_dev d1 s0)) p (λ l, W (l ++ called d1 ems)) -> cends denv s0 (λ k, calling f (p k)) W.
Proof.
  intros Ha Hh Hf H. unfold calling. apply (cends_call_emits denv s0 f (λ _ k, p k)); [done|done|]. rewrite Hf. exact H.
Qed.

(** ** Waits through a helper *)
Lemma settled_wait {B} (h : @helper qobj sig arg) (settles : sig -> arg -> B -> Prop) (f : option arg -> B) d to (l : list tev) v : direct h ->
  (∀ sg a d b v o, relay h sg a d = Some (b, v, o) -> settles sg a (f (Some v))) -> (∀ sg a d r, settles sg a r -> relay h sg a d ≠ None) ->
  helper_wait h d to l v -> settled settles (f None) to (f v) l.
Proof.
  intros Hd H1 H2 (lw & -> & Hq & Hv). destruct v as [p|].
  - destruct Hv as [_ Hh]. destruct (relays_head _ _ _ _ (Hh Hd)) as (sg & a & b & o & l1 & l2 & -> & Hr & Hn). eapply st_signal; [done|by eapply H1|].
    intros sg' a' b' (x & y & E)%elem_of_list_split Hs. eapply H2; [exact Hs|]. by eapply (relays_none _ _ _ Hn).
  - destruct Hv as (n & l' & -> & -> & Hn). eapply st_timeout; try done. intros e He. apply Hq. by right.
Qed.
Definition hw_spec {B} (denv : qobj -> list (sig * arg) -> qobj -> Prop) (settles : sig -> arg -> B -> Prop) (dflt : B) (to : option nat) (s0 : wstate) (b : B) (l : list tev) (s : wstate) : Prop :=
  settled settles dflt to b l ∧ kept s0 s l ∧ behaves denv (wdev s0) l.
Definition hw_wait {B} (settles : sig -> arg -> B -> Prop) (to : option nat) (l : list tev) : Prop :=
  (∃ sg a b, TEmit sg a ∈ l ∧ settles sg a b) ∨ ∃ n, to = Some n ∧ n ≤ elapsed l.
Lemma cspec_settled {B} denv h (settles : sig -> arg -> B -> Prop) f to (s0 : wstate) (U : wub -> list tev -> Prop) : walive s0 = true -> whelp s0 = None -> (∀ x, leaky h x = false) -> direct h -> calm h ->
  (∀ sg a d b v o, relay h sg a d = Some (b, v, o) -> settles sg a (f (Some v))) -> (∀ sg a d r, settles sg a r -> relay h sg a d ≠ None) ->
  cspec denv s0 (λ k : B -> wprog A, qCoro_helper h to (λ r, k (f r))) U (hw_spec denv settles (f None) to s0).
Proof.
  intros Ha Hh Hl Hd Hc H1 H2. apply (cspec_bind denv s0 (λ k, qCoro_helper h to k) (λ r k, k (f r)) _ (λ v, hw_spec denv settles (f None) to s0 (f v))).
  - apply cspec_helper_wait; try done. intros v l s2 Hw Hk Hb. split; [by eapply settled_wait|]. split; [done|]. by apply Hb.
  - intros v l s2 _ H _. apply (cspec_ret denv s2 (f v)). intros co. destruct H as (? & [] & ?). split; [done|]. split; [|done]. split; done.
Qed.
Lemma cends_settled {B} denv h (settles : sig -> arg -> B -> Prop) (f : option arg -> B) to (s0 : wstate) : walive s0 = true -> whelp s0 = None ->
  (∀ sg a d r, settles sg a r -> relay h sg a d ≠ None) ->
  cends denv s0 (λ k : B -> wprog A, qCoro_helper h to (λ r, k (f r))) (hw_wait settles to).
Proof.
  intros Ha Hh H2. apply (cends_then denv s0 (λ k, qCoro_helper h to k) (λ r k, k (f r))).
  - eapply cends_mono; [|by apply cends_helper]. intros l [(sg & a & b & Hin & Hs)|?]; [left|by right]. eapply relays_some; [exact Hin|].
    intros d'. destruct (relay h sg a d') as [x|] eqn:E; [eauto|]. by destruct (H2 _ _ d' _ Hs).
  - intros k b s2 Hc Hu. apply imm_done. left. eauto.
Qed.

Lemma is_unconnected_spec a : is_unconnected a = true <-> a = AState Unconnected.
Proof. destruct a as [| | |[]| |]; cbn; naive_solver. Qed.
Lemma is_connected_spec a : is_connected a = true <-> a = AState SConnected.
Proof. destruct a as [| | |[]| |]; cbn; naive_solver. Qed.
Lemma local_relay sg a d b v o : relay connected_helper sg a d = Some (b, v, o) -> settles_local sg a (bool_or_false (Some v)).
Proof. destruct sg; cbn; try done; [|by intros [= <- <- <-]]. destruct (is_unconnected a) eqn:E; [|done]. intros [= <- <- <-]. apply is_unconnected_spec in E. done. Qed.
Lemma local_relay2 sg a d r : settles_local sg a r -> relay connected_helper sg a d ≠ None.
Proof. destruct sg; cbn; try done. intros [-> _]. done. Qed.
Lemma local_direct : direct connected_helper.
Proof. intros sg q d p o. destruct sg; cbn; try done. by destruct (is_unconnected q). Qed.
Lemma local_calm : calm connected_helper.
Proof. intros sg p d b q d'. destruct sg; cbn; try done. by destruct (is_unconnected p). Qed.
Lemma open_relay sg a d b v o : relay open_helper sg a d = Some (b, v, o) -> settles_open sg a (bool_or_false (Some v)).
Proof. destruct sg; cbn; try done; [|by intros [= <- <- <-]]. destruct (is_connected a) eqn:E; [|done]. intros [= <- <- <-]. apply is_connected_spec in E. done. Qed.
Lemma open_relay2 sg a d r : settles_open sg a r -> relay open_helper sg a d ≠ None.
Proof. destruct sg; cbn; try done. intros [-> _]. done. Qed.
Lemma open_direct : direct open_helper.
Proof. intros sg q d p o. destruct sg; cbn; try done. by destruct (is_connected q). Qed.
Lemma open_calm : calm open_helper.
Proof. intros sg p d b q d'. destruct sg; cbn; try done. by destruct (is_connected p). Qed.
Lemma pong_direct : direct pong_helper.
Proof. intros sg q d p o. destruct sg; cbn; try done. by destruct (is_connected q). Qed.
Lemma pong_calm : calm pong_helper.
Proof. intros sg p d b q d'. destruct sg; cbn; try done. by destruct (is_connected p). Qed.

(** ** QLocalSocket *)
Definition local_spec (denv : qobj -> list (sig * arg) -> qobj -> Prop) (s0 : wstate) (to : option nat) (b : bool) (l : list tev) (s : wstate) : Prop :=
  local_connected (wdev s0) to b l ∧ kept s0 s l ∧ behaves denv (wdev s0) l.
Lemma cspec_local_connected denv to (s0 : wstate) (U : wub -> list tev -> Prop) : walive s0 = true -> whelp s0 = None ->
  cspec denv s0 (λ k : bool -> wprog A, local_waitForConnected to k) U (local_spec denv s0 to).
Proof.
  intros Ha Hh. unfold local_waitForConnected.
  apply (cspec_get denv s0 (λ d k, match o_state d with SConnected => k true | _ => qCoro_helper connected_helper to (λ r, k (bool_or_false r)) end)); [done|].
  unfold local_spec, local_connected. destruct (o_state (wdev s0)) eqn:E; cycle 3.
  { apply (cspec_ret denv s0 true). intros co. split; [by left|]. split; [apply kept_refl|apply behaves_nil]. }
  all: eapply cspec_mono; [apply (cspec_settled denv connected_helper settles_local bool_or_false); try done; [apply local_direct|apply local_calm|apply local_relay|apply local_relay2]|done|].
  all: intros b l s _ (? & ? & ?); split; [by right|done].
Qed.
Lemma cends_local_connected denv to (s0 : wstate) : walive s0 = true -> whelp s0 = None ->
  cends denv s0 (λ k : bool -> wprog A, local_waitForConnected to k) (hw_wait settles_local to).
Proof.
  intros Ha Hh. unfold local_waitForConnected.
  apply (cends_get denv s0 (λ d k, match o_state d with SConnected => k true | _ => qCoro_helper connected_helper to (λ r, k (bool_or_false r)) end)); [done|].
  destruct (o_state (wdev s0)) eqn:E; cycle 3.
  { apply (cends_ret denv s0 true). }
  all: apply cends_settled; try done; apply local_relay2.
Qed.
End facts.
