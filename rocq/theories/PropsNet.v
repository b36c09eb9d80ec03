(** * Property theorems C43, C49-C55, C58, C66, C67, C69-C72 (timers, sockets, replies, servers, processes, threads, web sockets).

    Vocabulary: QtModel.v (machine), QtSpec.v (call_spec, call_ends, quiet, inside), QtObj.v (the objects), QtNet.v (the code),
    QtNetSpec.v (what it should do). Trace segments are newest first. All theorems hold for every behaviour [denv] of the
    object unless they restrict it, and for every reachable state [s0] in which the caller calls the function. *)
From stdpp Require Import list.
From Coq Require Import ZArith.
From Verif Require Import TaskRun.
From Verif Require Import QtModel QtSpec QtInv QtAwait QtReach QtWrap QtTrace QtBehave QtCall QtEnds QtCall2 QtEnds2 QtObj QtIO QtIOFacts QtNet QtNetSpec QtStuck QtNetFacts QtNetFacts2 QtNetFacts3 PropsSignal PropsIO.

Section net.
Context {O A : Type}.
Notation wstate := (@wstate qobj sig arg O A).
Notation wprog := (@wprog qobj sig arg O A).
Notation tev := (@tev qobj sig arg O A).

(** [sg] was emitted, or the timeout is over and the object still exists. *)
Definition signal_or_timeout (sg : sig) (to : option nat) (l : list tev) : Prop :=
  (∃ a, TEmit sg a ∈ l) ∨ ∃ n, to = Some n ∧ n ≤ elapsed l ∧ TDestroy ∉ l.
(** A signal that decides the matter was emitted, or the timeout is over. *)
Definition settled_or_timeout {B} (settles : sig -> arg -> B -> Prop) (to : option nat) (l : list tev) : Prop :=
  (∃ sg a b, TEmit sg a ∈ l ∧ settles sg a b) ∨ ∃ n, to = Some n ∧ n ≤ elapsed l.

(** ** C43 *)
Theorem C43_co_await_timer denv (s0 : wstate) : reach denv s0 -> wubs s0 = None -> noleak s0 -> walive s0 = true ->
  call_spec denv s0 (λ k : unit -> wprog, co_await_timer k) (λ _ _, False) (λ _ l s, timer_awaited (FromDev (only Timeout)) (wdev s0) l).
Proof. intros. apply cspec_call; try done. eapply cspec_mono; [by apply (cspec_co_await_timer denv s0 (λ _ _, False))|done|]. by intros b l s _ [? _]. Qed.
Theorem C43_co_await_null_timer denv (s0 : wstate) : reach denv s0 -> wubs s0 = None -> noleak s0 -> walive s0 = false ->
  call_spec denv s0 (λ k : unit -> wprog, co_await_timer k) (λ _ _, False) (λ _ l s, l = []).
Proof. intros. apply cspec_call; try done. by apply cspec_co_await_no_timer. Qed.
Theorem C43_co_await_timer_ends denv (s0 : wstate) : reach denv s0 -> wubs s0 = None -> noleak s0 ->
  call_ends denv s0 (λ k : unit -> wprog, co_await_timer k) (λ l, ∃ a, TEmit Timeout a ∈ l).
Proof. intros. apply cends_call; try done. apply cends_co_await_timer. Qed.
Theorem C43_waitForTimeout denv (s0 : wstate) : reach denv s0 -> wubs s0 = None -> noleak s0 -> walive s0 = true ->
  call_spec denv s0 (λ k : unit -> wprog, timer_waitForTimeout k) (λ _ _, False) (λ _ l s, timer_awaited (FromDev (only Timeout)) (wdev s0) l).
Proof. intros. apply cspec_call; try done. eapply cspec_mono; [by apply (cspec_timer_waitForTimeout denv s0 (λ _ _, False))|done|]. by intros b l s _ [? _]. Qed.
Theorem C43_waitForTimeout_ends denv (s0 : wstate) : reach denv s0 -> wubs s0 = None -> noleak s0 -> walive s0 = true ->
  call_ends denv s0 (λ k : unit -> wprog, timer_waitForTimeout k) (λ l, ∃ a, TEmit Timeout a ∈ l).
Proof. intros. apply cends_call; try done. by apply cends_timer_waitForTimeout. Qed.

(** ** C49 *)
Theorem C49_waitForConnected denv (s0 : wstate) to : reach denv s0 -> wubs s0 = None -> noleak s0 -> walive s0 = true ->
  call_spec denv s0 (λ k : bool -> wprog, sock_waitForConnected to k) (λ _ _, False)
    (λ b l s, decided Connected (o_state (wdev s0) = SConnected) False to b l).
Proof. intros. apply cspec_call; try done. eapply cspec_mono; [by apply (cspec_sock_connected denv to s0 (λ _ _, False))|done|]. by intros b l s _ [? _]. Qed.
Theorem C49_waitForConnected_ends denv (s0 : wstate) to : reach denv s0 -> wubs s0 = None -> noleak s0 -> walive s0 = true ->
  call_ends denv s0 (λ k : bool -> wprog, sock_waitForConnected to k) (signal_or_timeout Connected to).
Proof. intros. apply cends_call; try done. by apply cends_sock_connected. Qed.
Theorem C49_waitForDisconnected denv (s0 : wstate) to : reach denv s0 -> wubs s0 = None -> noleak s0 -> walive s0 = true ->
  call_spec denv s0 (λ k : bool -> wprog, sock_waitForDisconnected to k) (λ _ _, False)
    (λ b l s, decided Disconnected False (o_state (wdev s0) = Unconnected) to b l).
Proof. intros. apply cspec_call; try done. eapply cspec_mono; [by apply (cspec_sock_disconnected denv to s0 (λ _ _, False))|done|]. by intros b l s _ [? _]. Qed.
Theorem C49_waitForDisconnected_ends denv (s0 : wstate) to : reach denv s0 -> wubs s0 = None -> noleak s0 -> walive s0 = true ->
  call_ends denv s0 (λ k : bool -> wprog, sock_waitForDisconnected to k) (signal_or_timeout Disconnected to).
Proof. intros. apply cends_call; try done. by apply cends_sock_disconnected. Qed.
(** connectToHost(): QAbstractSocket::connectToHost() goes to state [d1] and emits [ems]. *)
Theorem C49_connectToHost denv (s0 : wstate) f to d1 ems : reach denv s0 -> wubs s0 = None -> noleak s0 -> walive s0 = true -> whelp s0 = None -> f (wdev s0) = (d1, ems) ->
  call_spec denv s0 (λ k : bool -> wprog, sock_connectToHost f to k) (λ _ _, False)
    (λ b l s, ∃ l', l = l' ++ called d1 ems ∧ decided Connected (o_state d1 = SConnected) False to b l').
Proof.
  intros Hr Hu Hl Ha Hh Hf. apply cspec_call; try done. apply (cspec_calling denv f _ s0 _ _ d1 ems); try done.
  eapply cspec_mono; [by apply (cspec_sock_connected denv to _ (λ _ _, False))|done|]. intros b l s _ [? _]. by exists l.
Qed.

(** ** C50 (violated): a socket that does not get connected makes waitForConnected() wait for ever. *)
Theorem C50_hangs (OK : sig -> arg -> Prop) (denv : qobj -> list (sig * arg) -> qobj -> Prop) (s0 s : wstate) k : (∀ d ems d' sg p, denv d ems d' -> (sg, p) ∈ ems -> OK sg p) -> (∀ a, ¬ OK Connected a) -> (∀ sg p, (sg, p) ∈ wtodo s0 -> OK sg p) ->
  reach denv s0 -> wubs s0 = None -> noleak s0 -> walive s0 = true -> whelp s0 = None -> o_state (wdev s0) ≠ SConnected ->
  wco s0 = CRun (sock_waitForConnected None k) -> exec denv s0 s -> ∃ l, wtrace s = l ++ wtrace s0 ∧ inside l ∧ wubs s = None.
Proof.
  intros HOK Hno Htd Hr Hu Hl Ha Hh Hns Hc Hx. pose proof (reach_clean _ _ _ Hr Hu Hc) as Hcl.
  assert (Hst : step s0 = Next (set_co (CRun (signalled Connected None k)) s0)).
  { unfold step. rewrite Hu, Hc. unfold sock_waitForConnected. rewrite Ha. by destruct (o_state (wdev s0)). }
  destruct (exec_inv _ _ _ Hx) as [->|[(s1' & Hst' & Hx')|(e & s1' & Hst' & _)]]; [|rewrite Hst in Hst'; injection Hst' as <-|congruence].
  { exists []. split; [done|]. split; [apply inside_nil|done]. }
  destruct (signalled_hangs OK denv Connected k (set_co (CRun (signalled Connected None k)) s0) s HOK Hno Htd eq_refl Hu Hl (proj1 (good_co _ _ (conj Hcl (conj Hu Hl)))) Ha Hh Hx') as [->|(l & Ht & Hq & Hus)].
  - exists []. split; [done|]. split; [apply inside_nil|done].
  - exists (l ++ [TSusp (FromDev (only Connected)) None]). split; [by rewrite Ht, <- app_assoc|]. split; [|done]. apply inside_app; [by apply quiet_inside|]. apply inside_cons; [done|apply inside_nil].
Qed.

(** ** C51 *)
Theorem C51_waitForConnected denv (s0 : wstate) to : reach denv s0 -> wubs s0 = None -> noleak s0 -> walive s0 = true -> whelp s0 = None ->
  call_spec denv s0 (λ k : bool -> wprog, local_waitForConnected to k) (λ _ _, False) (λ b l s, local_connected (wdev s0) to b l).
Proof. intros. apply cspec_call; try done. eapply cspec_mono; [by apply (cspec_local_connected denv to s0 (λ _ _, False))|done|]. by intros b l s _ [? _]. Qed.
Theorem C51_waitForConnected_ends denv (s0 : wstate) to : reach denv s0 -> wubs s0 = None -> noleak s0 -> walive s0 = true -> whelp s0 = None ->
  call_ends denv s0 (λ k : bool -> wprog, local_waitForConnected to k) (settled_or_timeout settles_local to).
Proof. intros. apply cends_call; try done. by apply cends_local_connected. Qed.
Theorem C51_waitForDisconnected denv (s0 : wstate) to : reach denv s0 -> wubs s0 = None -> noleak s0 -> walive s0 = true ->
  call_spec denv s0 (λ k : bool -> wprog, local_waitForDisconnected to k) (λ _ _, False)
    (λ b l s, decided Disconnected False (o_state (wdev s0) = Unconnected) to b l).
Proof. intros. apply cspec_call; try done. eapply cspec_mono; [by apply (cspec_sock_disconnected denv to s0 (λ _ _, False))|done|]. by intros b l s _ [? _]. Qed.
Theorem C51_waitForDisconnected_ends denv (s0 : wstate) to : reach denv s0 -> wubs s0 = None -> noleak s0 -> walive s0 = true ->
  call_ends denv s0 (λ k : bool -> wprog, local_waitForDisconnected to k) (signal_or_timeout Disconnected to).
Proof. intros. apply cends_call; try done. by apply cends_sock_disconnected. Qed.
Theorem C51_connectToServer denv (s0 : wstate) f to d1 ems : reach denv s0 -> wubs s0 = None -> noleak s0 -> walive s0 = true -> whelp s0 = None -> f (wdev s0) = (d1, ems) ->
  call_spec denv s0 (λ k : bool -> wprog, local_connectToServer f to k) (λ _ _, False) (λ b l s, ∃ l', l = l' ++ called d1 ems ∧ local_connected d1 to b l').
Proof.
  intros Hr Hu Hl Ha Hh Hf. apply cspec_call; try done. apply (cspec_calling denv f _ s0 _ _ d1 ems); try done.
  eapply cspec_mono; [by apply (cspec_local_connected denv to _ (λ _ _, False))|done|]. intros b l s _ [? _]. by exists l.
Qed.
(** ** C72 (violated): when connectToServer() fails at once (Unix, no such server), the co_await never ends. *)
Theorem C72_failed_at_once_hangs (OK : sig -> arg -> Prop) (denv : qobj -> list (sig * arg) -> qobj -> Prop) f d1 ems (k : bool -> wprog) (s0 s : wstate) :
  (∀ d ems d' sg p, denv d ems d' -> (sg, p) ∈ ems -> OK sg p) -> (∀ sg a b, OK sg a -> ¬ settles_local sg a b) -> (∀ sg p, (sg, p) ∈ wtodo s0 -> OK sg p) ->
  reach denv s0 -> wubs s0 = None -> noleak s0 -> walive s0 = true -> whelp s0 = None -> f (wdev s0) = (d1, ems) -> o_state d1 ≠ SConnected ->
  wco s0 = CRun (local_connectToServer f None k) -> exec denv s0 s -> ∃ l, wtrace s = l ++ wtrace s0 ∧ inside l ∧ wubs s = None.
Proof. intros. by eapply (local_late OK). Qed.

(** ** C52 *)
Theorem C52_co_await_reply denv (s0 : wstate) : reach denv s0 -> wubs s0 = None -> noleak s0 -> walive s0 = true ->
  call_spec denv s0 (λ k : bool -> wprog, co_await_reply k) (λ _ _, False) (λ b l s, reply_awaited (wdev s0) b l).
Proof. intros. apply cspec_call; try done. eapply cspec_mono; [by apply (cspec_co_await_reply denv s0 (λ _ _, False))|done|]. by intros b l s _ [? _]. Qed.
Theorem C52_co_await_null_reply denv (s0 : wstate) : reach denv s0 -> wubs s0 = None -> noleak s0 -> walive s0 = false ->
  call_spec denv s0 (λ k : bool -> wprog, co_await_reply k) (λ _ _, False) (λ b l s, b = false ∧ l = []).
Proof. intros. apply cspec_call; try done. by apply cspec_co_await_no_reply. Qed.
Theorem C52_co_await_reply_ends denv (s0 : wstate) : reach denv s0 -> wubs s0 = None -> noleak s0 ->
  call_ends denv s0 (λ k : bool -> wprog, co_await_reply k) (λ l, ∃ a, TEmit Finished a ∈ l).
Proof. intros. apply cends_call; try done. apply cends_co_await_reply. Qed.
Theorem C52_waitForFinished denv (s0 : wstate) to : reach denv s0 -> wubs s0 = None -> noleak s0 -> walive s0 = true ->
  call_spec denv s0 (λ k : bool -> wprog, reply_waitForFinished to k) (λ _ _, False) (λ b l s, decided Finished (o_finished (wdev s0) = true) False to b l).
Proof. intros. apply cspec_call; try done. eapply cspec_mono; [by apply (cspec_reply_finished denv to s0 (λ _ _, False))|done|]. by intros b l s _ [? _]. Qed.
Theorem C52_waitForFinished_ends denv (s0 : wstate) to : reach denv s0 -> wubs s0 = None -> noleak s0 -> walive s0 = true ->
  call_ends denv s0 (λ k : bool -> wprog, reply_waitForFinished to k) (signal_or_timeout Finished to).
Proof. intros. apply cends_call; try done. by apply cends_reply_finished. Qed.

(** ** C53 *)
Theorem C53_waitForNewConnection denv (s0 : wstate) to : reach denv s0 -> wubs s0 = None -> noleak s0 -> walive s0 = true ->
  call_spec denv s0 (λ k : option nat -> wprog, tcp_waitForNewConnection to k) (λ u l, u = WDead ∧ TDestroy ∈ l)
    (λ c l s, new_connection (wdev s0) to c l (wdev s)).
Proof. intros. apply cspec_call; try done. eapply cspec_mono; [by apply cspec_tcp|done|]. by intros b l s _ [? _]. Qed.
Theorem C53_waitForNewConnection_ends denv (s0 : wstate) to : reach denv s0 -> wubs s0 = None -> noleak s0 -> walive s0 = true ->
  call_ends denv s0 (λ k : option nat -> wprog, tcp_waitForNewConnection to k) (signal_or_timeout NewConnection to).
Proof. intros. apply cends_call; try done. by apply cends_tcp. Qed.
(** Accepting again and again: what was returned, followed by what is still pending, is what was pending and what came in. *)
Theorem C53_stream denv (s0 : wstate) tos : queues denv ->
  reach denv s0 -> wubs s0 = None -> noleak s0 -> walive s0 = true -> whelp s0 = None ->
  call_spec denv s0 (λ k : list (option nat) -> wprog, accept_each tos [] k) (λ u l, u = WDead ∧ TDestroy ∈ l)
    (λ cs l s, length cs = length tos ∧ o_pending (wdev s0) ++ clients (wdev s0) l = concat (map option_list cs) ++ o_pending (wdev s)).
Proof.
  intros Hq ? ? ? Ha ?. apply cspec_call; try done. eapply cspec_mono; [by apply cspec_accept_each|done|]. cbn beta.
  intros bs l s _ (cs & -> & ? & _ & Hs). auto.
Qed.
(** So none is handed out twice. *)
Theorem C53_at_most_once denv (s0 : wstate) tos : queues denv ->
  reach denv s0 -> wubs s0 = None -> noleak s0 -> walive s0 = true -> whelp s0 = None ->
  call_spec denv s0 (λ k : list (option nat) -> wprog, accept_each tos [] k) (λ u l, u = WDead ∧ TDestroy ∈ l)
    (λ cs l s, NoDup (o_pending (wdev s0) ++ clients (wdev s0) l) -> ∀ i j c, cs !! i = Some (Some c) -> cs !! j = Some (Some c) -> i = j).
Proof.
  intros Hq ? ? ? Ha ?. apply cspec_call; try done. eapply cspec_mono; [by apply cspec_accept_each|done|]. cbn beta.
  intros bs l s _ (cs & -> & _ & _ & Hs) Hnd. rewrite (Hs Hq) in Hnd. apply NoDup_app in Hnd as [Hnd _]. clear -Hnd. cbn [app].
  induction cs as [|x cs IH]; intros i j c Hi Hj; [done|]. cbn [map concat] in Hnd. apply NoDup_app in Hnd as (Hx & Hxy & Hcs).
  assert (Hin : ∀ n, cs !! n = Some (Some c) -> c ∈ concat (map option_list cs)).
  { intros n Hn. apply elem_of_list_In, in_concat. exists (option_list (Some c)). split; [|left; done]. apply in_map, elem_of_list_In. by eapply elem_of_list_lookup_2. }
  destruct i as [|i], j as [|j]; cbn in Hi, Hj; [done|..].
  - injection Hi as ->. destruct (Hxy c); [left|by eapply Hin].
  - injection Hj as ->. destruct (Hxy c); [left|by eapply Hin].
  - f_equal. by eapply IH.
Qed.

(** ** C54 *)
Theorem C54_waitForStarted denv (s0 : wstate) to : reach denv s0 -> wubs s0 = None -> noleak s0 -> walive s0 = true ->
  call_spec denv s0 (λ k : bool -> wprog, proc_waitForStarted to k) (λ _ _, False)
    (λ b l s, decided Started (o_proc (wdev s0) = Running) (o_proc (wdev s0) = NotRunning) to b l).
Proof. intros. apply cspec_call; try done. eapply cspec_mono; [by apply (cspec_proc_started denv to s0 (λ _ _, False))|done|]. by intros b l s _ [? _]. Qed.
Theorem C54_waitForStarted_ends denv (s0 : wstate) to : reach denv s0 -> wubs s0 = None -> noleak s0 -> walive s0 = true ->
  call_ends denv s0 (λ k : bool -> wprog, proc_waitForStarted to k) (signal_or_timeout Started to).
Proof. intros. apply cends_call; try done. by apply cends_proc_started. Qed.
Theorem C54_waitForFinished denv (s0 : wstate) to : reach denv s0 -> wubs s0 = None -> noleak s0 -> walive s0 = true ->
  call_spec denv s0 (λ k : bool -> wprog, proc_waitForFinished to k) (λ _ _, False)
    (λ b l s, decided Finished False (o_proc (wdev s0) = NotRunning) to b l).
Proof. intros. apply cspec_call; try done. eapply cspec_mono; [by apply (cspec_proc_finished denv to s0 (λ _ _, False))|done|]. by intros b l s _ [? _]. Qed.
Theorem C54_waitForFinished_ends denv (s0 : wstate) to : reach denv s0 -> wubs s0 = None -> noleak s0 -> walive s0 = true ->
  call_ends denv s0 (λ k : bool -> wprog, proc_waitForFinished to k) (signal_or_timeout Finished to).
Proof. intros. apply cends_call; try done. by apply cends_proc_finished. Qed.
(** start(): QProcess::start() goes to state [d1] and emits [ems]. *)
Theorem C54_start denv (s0 : wstate) f to d1 ems : reach denv s0 -> wubs s0 = None -> noleak s0 -> walive s0 = true -> whelp s0 = None -> f (wdev s0) = (d1, ems) ->
  call_spec denv s0 (λ k : bool -> wprog, proc_start f to k) (λ _ _, False)
    (λ b l s, ∃ l', l = l' ++ called d1 ems ∧ decided Started (o_proc d1 = Running) (o_proc d1 = NotRunning) to b l').
Proof.
  intros Hr Hu Hl Ha Hh Hf. apply cspec_call; try done. apply (cspec_calling denv f _ s0 _ _ d1 ems); try done.
  eapply cspec_mono; [by apply (cspec_proc_started denv to _ (λ _ _, False))|done|]. intros b l s _ [? _]. by exists l.
Qed.

(** ** C69 (violated): a process that fails to start makes waitForStarted() wait for ever. *)
Theorem C69_hangs (OK : sig -> arg -> Prop) (denv : qobj -> list (sig * arg) -> qobj -> Prop) (s0 s : wstate) k : (∀ d ems d' sg p, denv d ems d' -> (sg, p) ∈ ems -> OK sg p) -> (∀ a, ¬ OK Started a) -> (∀ sg p, (sg, p) ∈ wtodo s0 -> OK sg p) ->
  reach denv s0 -> wubs s0 = None -> noleak s0 -> walive s0 = true -> whelp s0 = None -> o_proc (wdev s0) = Starting ->
  wco s0 = CRun (proc_waitForStarted None k) -> exec denv s0 s -> ∃ l, wtrace s = l ++ wtrace s0 ∧ inside l ∧ wubs s = None.
Proof.
  intros HOK Hno Htd Hr Hu Hl Ha Hh Hns Hc Hx. pose proof (reach_clean _ _ _ Hr Hu Hc) as Hcl.
  assert (Hst : step s0 = Next (set_co (CRun (signalled Started None k)) s0)).
  { unfold step. rewrite Hu, Hc. unfold proc_waitForStarted. by rewrite Ha, Hns. }
  destruct (exec_inv _ _ _ Hx) as [->|[(s1' & Hst' & Hx')|(e & s1' & Hst' & _)]]; [|rewrite Hst in Hst'; injection Hst' as <-|congruence].
  { exists []. split; [done|]. split; [apply inside_nil|done]. }
  destruct (signalled_hangs OK denv Started k (set_co (CRun (signalled Started None k)) s0) s HOK Hno Htd eq_refl Hu Hl (proj1 (good_co _ _ (conj Hcl (conj Hu Hl)))) Ha Hh Hx') as [->|(l & Ht & Hq & Hus)].
  - exists []. split; [done|]. split; [apply inside_nil|done].
  - exists (l ++ [TSusp (FromDev (only Started)) None]). split; [by rewrite Ht, <- app_assoc|]. split; [|done]. apply inside_app; [by apply quiet_inside|]. apply inside_cons; [done|apply inside_nil].
Qed.

(** ** C55 (waitForStarted(), waitForFinished(); for moveToThread() see PropsThread.v) *)
Theorem C55_waitForStarted denv (s0 : wstate) to : reach denv s0 -> wubs s0 = None -> noleak s0 -> walive s0 = true ->
  call_spec denv s0 (λ k : bool -> wprog, thread_waitForStarted to k) (λ _ _, False)
    (λ b l s, decided Started (o_running (wdev s0) = true) (o_finished (wdev s0) = true) to b l).
Proof. intros. apply cspec_call; try done. eapply cspec_mono; [by apply (cspec_thread_started denv to s0 (λ _ _, False))|done|]. by intros b l s _ [? _]. Qed.
Theorem C55_waitForStarted_ends denv (s0 : wstate) to : reach denv s0 -> wubs s0 = None -> noleak s0 -> walive s0 = true ->
  call_ends denv s0 (λ k : bool -> wprog, thread_waitForStarted to k) (signal_or_timeout Started to).
Proof. intros. apply cends_call; try done. by apply cends_thread_started. Qed.
Theorem C55_waitForFinished denv (s0 : wstate) to : reach denv s0 -> wubs s0 = None -> noleak s0 -> walive s0 = true ->
  call_spec denv s0 (λ k : bool -> wprog, thread_waitForFinished to k) (λ _ _, False)
    (λ b l s, decided Finished (o_finished (wdev s0) = true) (o_running (wdev s0) = false) to b l).
Proof. intros. apply cspec_call; try done. eapply cspec_mono; [by apply (cspec_thread_finished denv to s0 (λ _ _, False))|done|]. by intros b l s _ [? _]. Qed.
Theorem C55_waitForFinished_ends denv (s0 : wstate) to : reach denv s0 -> wubs s0 = None -> noleak s0 -> walive s0 = true ->
  call_ends denv s0 (λ k : bool -> wprog, thread_waitForFinished to k) (signal_or_timeout Finished to).
Proof. intros. apply cends_call; try done. by apply cends_thread_finished. Qed.

(** ** C58, first half: open() and ping(). QWebSocket::open() resp. ping() goes to state [d1] and emits [ems]; nothing in [ems]
    decides the matter already (then see C67). *)
Theorem C58_open denv f to d1 ems (s0 : wstate) : reach denv s0 -> wubs s0 = None -> noleak s0 -> walive s0 = true -> whelp s0 = None -> f (wdev s0) = (d1, ems) ->
  (∀ sg a b, (sg, a) ∈ ems -> ¬ settles_open sg a b) ->
  call_spec denv s0 (λ k : bool -> wprog, ws_open f to k) (λ _ _, False)
    (λ b l s, (o_state (wdev s0) = SConnected ∧ b = true ∧ l = []) ∨ (o_state (wdev s0) ≠ SConnected ∧ ∃ l', l = l' ++ called d1 ems ∧ settled settles_open false to b l')).
Proof. intros. apply cspec_call; try done. by apply cspec_ws_open. Qed.
Theorem C58_open_ends denv f to d1 ems (s0 : wstate) : reach denv s0 -> wubs s0 = None -> noleak s0 -> walive s0 = true -> whelp s0 = None -> f (wdev s0) = (d1, ems) ->
  (∀ sg a b, (sg, a) ∈ ems -> ¬ settles_open sg a b) ->
  call_ends denv s0 (λ k : bool -> wprog, ws_open f to k) (λ l, ∃ l', l = l' ++ called d1 ems ∧ settled_or_timeout settles_open to l').
Proof. intros. apply cends_call; try done. by apply cends_ws_open. Qed.
Theorem C58_ping denv f to d1 ems (s0 : wstate) : reach denv s0 -> wubs s0 = None -> noleak s0 -> walive s0 = true -> whelp s0 = None -> f (wdev s0) = (d1, ems) ->
  (∀ sg a b, (sg, a) ∈ ems -> ¬ settles_ping sg a b) ->
  call_spec denv s0 (λ k : option Z -> wprog, ws_ping f to k) (λ _ _, False)
    (λ b l s, (o_state (wdev s0) ≠ SConnected ∧ b = None ∧ l = []) ∨ (o_state (wdev s0) = SConnected ∧ ∃ l', l = l' ++ called d1 ems ∧ settled settles_ping None to b l')).
Proof. intros. apply cspec_call; try done. by apply cspec_ws_ping. Qed.
Theorem C58_ping_ends denv f to d1 ems (s0 : wstate) : reach denv s0 -> wubs s0 = None -> noleak s0 -> walive s0 = true -> whelp s0 = None -> f (wdev s0) = (d1, ems) ->
  (∀ sg a b, (sg, a) ∈ ems -> ¬ settles_ping sg a b) ->
  call_ends denv s0 (λ k : option Z -> wprog, ws_ping f to k) (λ l, ∃ l', l = l' ++ called d1 ems ∧ settled_or_timeout settles_ping to l').
Proof. intros. apply cends_call; try done. by apply cends_ws_ping. Qed.

(** ** C67 (violated): if the socket reports the outcome during the call of open() itself, open() without timeout never
    returns, whatever the socket does later. *)
Theorem C67_outcome_lost denv f d1 ems (k : bool -> wprog) (s0 s : wstate) : reach denv s0 -> wubs s0 = None -> noleak s0 -> walive s0 = true -> whelp s0 = None ->
  o_state (wdev s0) ≠ SConnected -> f (wdev s0) = (d1, ems) -> (∃ sg a b, (sg, a) ∈ ems ∧ settles_open sg a b) ->
  wco s0 = CRun (ws_open f None k) -> exec denv s0 s -> ∃ l, wtrace s = l ++ wtrace s0 ∧ inside l ∧ wubs s = None.
Proof. apply open_lost. Qed.

(** ** C70 *)
Theorem C70_nextPendingConnection denv to (s0 : wstate) : reach denv s0 -> wubs s0 = None -> noleak s0 -> walive s0 = true -> whelp s0 = None ->
  call_spec denv s0 (λ k : option nat -> wprog, ws_nextPendingConnection to k) (λ _ _, False) (λ c l s, next_connection (wdev s0) to c l).
Proof. apply call_spec_ws_server. Qed.
Theorem C70_nextPendingConnection_ends denv to (s0 : wstate) : reach denv s0 -> wubs s0 = None -> noleak s0 -> walive s0 = true -> whelp s0 = None ->
  call_ends denv s0 (λ k : option nat -> wprog, ws_nextPendingConnection to k) (λ l, (∃ sg a, TEmit sg a ∈ l ∧ (sg = Closed ∨ sg = NewConnection)) ∨ ∃ n, to = Some n ∧ n ≤ elapsed l).
Proof. intros. apply cends_call; try done. by apply cends_ws_server. Qed.
End net.
Print Assumptions C43_co_await_timer.
Print Assumptions C49_connectToHost.
Print Assumptions C50_hangs.
Print Assumptions C51_connectToServer.
Print Assumptions C72_failed_at_once_hangs.
Print Assumptions C52_co_await_reply.
Print Assumptions C53_at_most_once.
Print Assumptions C54_start.
Print Assumptions C69_hangs.
Print Assumptions C55_waitForFinished_ends.
Print Assumptions C58_open.
Print Assumptions C58_ping_ends.
Print Assumptions C67_outcome_lost.
Print Assumptions C70_nextPendingConnection.
Print Assumptions C70_nextPendingConnection_ends.

(** ** Examples and counterexamples *)
Definition in_state (st : sockstate) : qobj := QObj true true true [] 0 st false false NotRunning false [] false true.
Definition in_proc (p : procstate) : qobj := QObj true true true [] 0 SConnected false false p false [] false true.
Definition in_thread (running finished : bool) : qobj := QObj true true true [] 0 SConnected finished running NotRunning false [] false true.
Definition serving (cs : list nat) : qobj := QObj true true true [] 0 SConnected false false NotRunning true cs false true.
Definition ticking (b : bool) : qobj := QObj true true true [] 0 SConnected false false NotRunning false [] b true.
Definition report {B} (b : B) : qprog B := WObs b (WRet tt).
(** What the program reported, oldest first. *)
Definition reported {B} (s : @wstate qobj sig arg B unit) : list B := reverse (omap (λ e, match e with TObs b => Some b | _ => None end) (wtrace s)).
(** The hypotheses of the theorems hold at the start of a program. *)
Lemma start_hyps {B} denv d (p : qprog B) : let s0 := winit d true p in reach denv s0 ∧ wubs s0 = None ∧ noleak s0 ∧ walive s0 = true ∧ whelp s0 = None ∧ wco s0 = CRun p.
Proof. split; [apply (wplay_reach denv 0 []); done|done]. Qed.

Example ex43_direct : reported (wplay 20 [EvTick; EvDev (ticking false) [(Timeout, ANone)]] (winit (ticking true) true (co_await_timer report))) = [tt].
Proof. reflexivity. Qed.
Example ex43_wait : reported (wplay 20 [EvTick; EvDev (ticking false) [(Timeout, ANone)]] (winit (ticking true) true (timer_waitForTimeout report))) = [] ∧
  reported (wplay 20 [EvTick; EvDev (ticking false) [(Timeout, ANone)]; EvPosted] (winit (ticking true) true (timer_waitForTimeout report))) = [tt] ∧
  reported (wplay 20 [] (winit (ticking false) true (timer_waitForTimeout report))) = [tt] ∧ reported (wplay 20 [] (winit (ticking false) false (co_await_timer report))) = [tt].
Proof. done. Qed.

Example ex49 : reported (wplay 20 [EvTick; EvDev (in_state SConnected) [(StateChanged, AState SConnected); (Connected, ANone)]; EvPosted] (winit (in_state Connecting) true (sock_waitForConnected (Some 3) report))) = [true] ∧
  reported (wplay 20 [EvTick; EvDev (in_state Unconnected) [(StateChanged, AState Unconnected); (ErrorOccurred, ANone)]; EvTick; EvTick; EvTimer] (winit (in_state Connecting) true (sock_waitForConnected (Some 3) report))) = [false] ∧
  reported (wplay 20 [EvDev (in_state Unconnected) [(Disconnected, ANone)]; EvPosted] (winit (in_state SConnected) true (sock_waitForDisconnected None report))) = [true].
Proof. done. Qed.

(** C50: the attempt fails; whatever happens later (the program does not try again), the coroutine stays suspended. *)
Definition never (sg0 : sig) : qobj -> list (sig * arg) -> qobj -> Prop := λ _ ems _, ∀ sg a, (sg, a) ∈ ems -> sg ≠ sg0.
Definition run50 := wplay 20 [EvDev (in_state Unconnected) [(ErrorOccurred, ANone); (StateChanged, AState Unconnected)]] (winit (in_state Connecting) true (sock_waitForConnected None report)).
Lemma run50_trace : wtrace run50 = [TEmit StateChanged (AState Unconnected); TEmit ErrorOccurred ANone; TDev (in_state Unconnected); TSusp (FromDev (only Connected)) None].
Proof. reflexivity. Qed.
Lemma run50_exec : exec (never Connected) (winit (in_state Connecting) true (sock_waitForConnected None report)) run50.
Proof.
  apply wplay_exec; [|constructor]. cbn. split; [|done]. intros sg a. rewrite !elem_of_cons. intros [[= -> _]|[[= -> _]|?%elem_of_nil]]; done.
Qed.
Lemma never_only sg0 : ∀ d ems d' sg p, never sg0 d ems d' -> (sg, p) ∈ ems -> sg ≠ sg0.
Proof. intros d ems d' sg p H Hin. by eapply H. Qed.
Lemma inside_noobs {B} (l : list (@tev qobj sig arg B unit)) : inside l -> ∀ o, TObs o ∉ l.
Proof. intros H o Ho. by specialize (H _ Ho). Qed.
Theorem C50_refuted : ∃ s : @wstate qobj sig arg bool unit, reach (never Connected) s ∧ o_state (wdev s) = Unconnected ∧ TEmit ErrorOccurred ANone ∈ wtrace s ∧
  ∀ s', exec (never Connected) s s' -> ∀ o, TObs o ∉ wtrace s'.
Proof.
  pose proof run50_trace as Ht. pose proof run50_exec as Hx. assert (Hst : o_state (wdev run50) = Unconnected) by reflexivity.
  exists run50. generalize dependent run50. intros s Ht Hx Hst. split; [eexists _, _, _; exact Hx|]. split; [done|]. split; [rewrite Ht; in_|].
  intros s' Hx'. pose proof (exec_trans _ _ _ _ Hx Hx') as Hxx.
  destruct (start_hyps (never Connected) (in_state Connecting) (sock_waitForConnected None report)) as (H1 & H2 & H3 & H4 & H5 & H6).
  destruct (C50_hangs (λ sg _, sg ≠ Connected) (never Connected) (winit (in_state Connecting) true (sock_waitForConnected None report)) s' report (never_only Connected)) as (l & Hl & Hi & _); try done; [naive_solver|by intros ? ? ?%elem_of_nil|].
  rewrite Hl, app_nil_r. by apply inside_noobs.
Qed.
Print Assumptions C50_refuted.

(** C51 *)
Example ex51 : reported (wplay 20 [EvTick; EvDev (in_state SConnected) [(StateChanged, AState SConnected); (Connected, ANone)]; EvPosted] (winit (in_state Connecting) true (local_waitForConnected (Some 3) report))) = [true] ∧
  reported (wplay 20 [EvTick; EvDev (in_state Unconnected) [(ErrorOccurred, ANone); (StateChanged, AState Unconnected)]; EvPosted] (winit (in_state Connecting) true (local_waitForConnected None report))) = [false].
Proof. done. Qed.
(** C72: QLocalSocket::connectToServer() on Unix when there is no such server. *)
Definition no_such_server : qobj -> qobj * list (sig * arg) := λ _, (in_state Unconnected, [(StateChanged, AState Connecting); (ErrorOccurred, ANone); (StateChanged, AState Unconnected)]).
Definition no_attempt : qobj -> list (sig * arg) -> qobj -> Prop := λ _ ems _, ∀ sg a, (sg, a) ∈ ems -> ∀ b, ¬ settles_local sg a b.
Theorem C72_refuted : ∃ s0 : @wstate qobj sig arg bool unit, reach no_attempt s0 ∧ wco s0 = CRun (local_connectToServer no_such_server None report) ∧
  ∀ s', exec no_attempt s0 s' -> ∀ o, TObs o ∉ wtrace s'.
Proof.
  destruct (start_hyps no_attempt (in_state Unconnected) (local_connectToServer no_such_server None report)) as (H1 & H2 & H3 & H4 & H5 & H6).
  exists (winit (in_state Unconnected) true (local_connectToServer no_such_server None report)). split; [done|]. split; [done|]. intros s' Hx.
  destruct (C72_failed_at_once_hangs (λ sg a, ∀ b, ¬ settles_local sg a b) no_attempt no_such_server (in_state Unconnected) [(StateChanged, AState Connecting); (ErrorOccurred, ANone); (StateChanged, AState Unconnected)] report (winit (in_state Unconnected) true (local_connectToServer no_such_server None report)) s') as (l & Hl & Hi & _); try done.
  - intros d ems d' sg a H Hin. by eapply H.
  - by intros ? ? ?%elem_of_nil.
  - rewrite Hl, app_nil_r. by apply inside_noobs.
Qed.
Print Assumptions C72_refuted.

Example ex52 : reported (wplay 20 [EvTick; EvDev (in_thread false true) [(Finished, ANone)]; EvPosted] (winit device true (co_await_reply report))) = [true] ∧
  reported (wplay 20 [EvDev (in_thread false true) [(Finished, ANone)]; EvDestroy; EvPosted] (winit device true (co_await_reply report))) = [false] ∧
  reported (wplay 20 [] (winit (in_thread false true) true (reply_waitForFinished None report))) = [true].
Proof. done. Qed.

(** Three calls; the first finds client 1 pending, 2 and 3 come while the second one waits. *)
Definition grows : qobj -> list (sig * arg) -> qobj -> Prop := λ d _ d', ∃ x, o_pending d' = o_pending d ++ x.
Definition run53 := wplay 40 [EvDev (serving [2; 3]) [(NewConnection, ANone); (NewConnection, ANone)]; EvPosted; EvTick; EvTimer]
  (winit (serving [1]) true (accept_each [None; None; Some 4; Some 1] [] report)).
Example ex53 : reach grows run53 ∧ queues grows ∧ reported run53 = [[Some 1; Some 2; Some 3; None]].
Proof.
  split; [|split; [by intros ? ? ? ?|reflexivity]]. apply wplay_reach. vm_compute. split; [by exists [2; 3]|]. done.
Qed.

Example ex54 : reported (wplay 20 [EvTick; EvDev (in_proc Running) [(StateChanged, ANone); (Started, ANone)]; EvPosted] (winit (in_proc NotRunning) true (proc_start (λ d, (in_proc Starting, [(StateChanged, ANone)])) (Some 3) report))) = [true] ∧
  reported (wplay 20 [] (winit (in_proc NotRunning) true (proc_waitForFinished (Some 3) report))) = [false] ∧
  reported (wplay 20 [EvDev (in_proc NotRunning) [(Finished, ANone)]; EvPosted] (winit (in_proc Running) true (proc_waitForFinished None report))) = [true].
Proof. done. Qed.

(** C69: QProcess::start() succeeds, then the program turns out not to exist (FailedToStart). *)
Definition run69 := wplay 20 [EvDev (in_proc NotRunning) [(StateChanged, ANone); (ErrorOccurred, ANone)]] (winit (in_proc Starting) true (proc_waitForStarted None report)).
Lemma run69_trace : wtrace run69 = [TEmit ErrorOccurred ANone; TEmit StateChanged ANone; TDev (in_proc NotRunning); TSusp (FromDev (only Started)) None].
Proof. reflexivity. Qed.
Lemma run69_exec : exec (never Started) (winit (in_proc Starting) true (proc_waitForStarted None report)) run69.
Proof.
  apply wplay_exec; [|constructor]. cbn. split; [|done]. intros sg a. rewrite !elem_of_cons. intros [[= -> _]|[[= -> _]|?%elem_of_nil]]; done.
Qed.
Theorem C69_refuted : ∃ s : @wstate qobj sig arg bool unit, reach (never Started) s ∧ o_proc (wdev s) = NotRunning ∧ TEmit ErrorOccurred ANone ∈ wtrace s ∧
  ∀ s', exec (never Started) s s' -> ∀ o, TObs o ∉ wtrace s'.
Proof.
  pose proof run69_trace as Ht. pose proof run69_exec as Hx. assert (Hst : o_proc (wdev run69) = NotRunning) by reflexivity.
  exists run69. generalize dependent run69. intros s Ht Hx Hst. split; [eexists _, _, _; exact Hx|]. split; [done|]. split; [rewrite Ht; in_|].
  intros s' Hx'. pose proof (exec_trans _ _ _ _ Hx Hx') as Hxx.
  destruct (start_hyps (never Started) (in_proc Starting) (proc_waitForStarted None report)) as (H1 & H2 & H3 & H4 & H5 & H6).
  destruct (C69_hangs (λ sg _, sg ≠ Started) (never Started) (winit (in_proc Starting) true (proc_waitForStarted None report)) s' report (never_only Started)) as (l & Hl & Hi & _); try done; [naive_solver|by intros ? ? ?%elem_of_nil|].
  rewrite Hl, app_nil_r. by apply inside_noobs.
Qed.
Print Assumptions C69_refuted.

Example ex55 : reported (wplay 20 [EvDev (in_thread true false) [(Started, ANone)]; EvPosted] (winit (in_thread false false) true (thread_waitForStarted None report))) = [true] ∧
  reported (wplay 20 [] (winit (in_thread false true) true (thread_waitForStarted None report))) = [false] ∧
  reported (wplay 20 [EvTick; EvTick; EvTimer] (winit (in_thread true false) true (thread_waitForFinished (Some 2) report))) = [false].
Proof. done. Qed.

Example ex58 : reported (wplay 20 [EvDev (in_state SConnected) [(StateChanged, AState SConnected); (Connected, ANone)]; EvPosted]
    (winit (in_state Unconnected) true (ws_open (λ _, (in_state Connecting, [(StateChanged, AState Connecting)])) None report))) = [true] ∧
  reported (wplay 20 [EvDev (in_state Unconnected) [(ErrorOccurred, ANone)]; EvPosted]
    (winit (in_state Unconnected) true (ws_open (λ _, (in_state Connecting, [(StateChanged, AState Connecting)])) None report))) = [false] ∧
  reported (wplay 20 [EvTick; EvDev device [(Pong, APong (Some 12%Z))]; EvPosted] (winit device true (ws_ping (λ d, (d, [])) (Some 5) report))) = [Some 12%Z] ∧
  reported (wplay 20 [EvDev (in_state Closing) [(StateChanged, AState Closing)]; EvPosted] (winit device true (ws_ping (λ d, (d, [])) None report))) = [None].
Proof. done. Qed.

(** C67: QWebSocket::open() with an invalid url reports the error at once. *)
Definition bad_url : qobj -> qobj * list (sig * arg) := λ d, (d, [(ErrorOccurred, ANone)]).
Theorem C67_refuted : ∃ s0 : @wstate qobj sig arg bool unit, reach anything s0 ∧ wco s0 = CRun (ws_open bad_url None report) ∧ ∀ s', exec anything s0 s' -> ∀ o, TObs o ∉ wtrace s'.
Proof.
  destruct (start_hyps anything (in_state Unconnected) (ws_open bad_url None report)) as (H1 & H2 & H3 & H4 & H5 & H6).
  exists (winit (in_state Unconnected) true (ws_open bad_url None report)). split; [done|]. split; [done|]. intros s' Hx.
  destruct (C67_outcome_lost anything bad_url (in_state Unconnected) [(ErrorOccurred, ANone)] report _ s' H1) as (l & Hl & Hi & _); try done.
  - exists ErrorOccurred, ANone, false. split; [left|done].
  - rewrite Hl, app_nil_r. by apply inside_noobs.
Qed.
Print Assumptions C67_refuted.

Example ex70 : reported (wplay 20 [EvDev (serving [4]) [(NewConnection, ANone)]; EvPosted] (winit (serving []) true (ws_nextPendingConnection None report))) = [Some 4] ∧
  reported (wplay 20 [EvDev (serving []) [(Closed, ANone)]; EvPosted] (winit (serving []) true (ws_nextPendingConnection None report))) = [None] ∧
  reported (wplay 20 [] (winit (serving [7; 8]) true (ws_nextPendingConnection None report))) = [Some 7].
Proof. done. Qed.

(** C66: the call timed out and returned; then a client connects: the slot, which has no context object, uses the helper
    that does not exist any more. *)
Theorem C66_refuted : ∃ s : @wstate qobj sig arg (option nat) unit, reach anything s ∧ wubs s = Some WStaleSlot ∧
  wtrace s = [TEmit NewConnection ANone; TDev (serving [4]); TRet tt; TObs None; TResume None; TExpire; TTick; TSusp FromHelper (Some 1)].
Proof.
  exists (wplay 20 [EvTick; EvTimer; EvDev (serving [4]) [(NewConnection, ANone)]] (winit (serving []) true (ws_nextPendingConnection (Some 1) report))).
  split; [apply wplay_reach; allowed|]. vm_compute. done.
Qed.
Print Assumptions C66_refuted.

(** C71: two clients connect before the coroutine is resumed. Both are taken from the server, one is returned. *)
Theorem C71_refuted : ∃ s : @wstate qobj sig arg (option nat) unit, reach grows s ∧ wubs s = None ∧ wco s = CDone tt ∧ o_pending (wdev s) = [] ∧ reported s = [Some 4] ∧ TDev (serving [5]) ∈ wtrace s.
Proof.
  set (s := wplay 20 [EvDev (serving [4]) [(NewConnection, ANone)]; EvDev (serving [5]) [(NewConnection, ANone)]; EvPosted] (winit (serving []) true (ws_nextPendingConnection None report))).
  assert (Hr : reach grows s). { apply wplay_reach. vm_compute. split; [by exists [4]|]. split; [by exists [5]|]. done. }
  assert (Ht : wtrace s = [TRet tt; TObs (Some 4); TResume (Some (AConn (Some 4))); TReady (AConn (Some 5)); TDev (serving []); TEmit NewConnection ANone; TDev (serving [5]);
    TReady (AConn (Some 4)); TDev (serving []); TEmit NewConnection ANone; TDev (serving [4]); TSusp FromHelper None]) by (vm_compute; reflexivity).
  assert (Hs : wubs s = None ∧ wco s = CDone tt ∧ o_pending (wdev s) = [] ∧ reported s = [Some 4]) by (split_and!; vm_compute; reflexivity).
  clearbody s. exists s. destruct Hs as (? & ? & ? & ?). do 5 (split; [done|]). rewrite Ht. in_.
Qed.
Print Assumptions C71_refuted.
