(** * Property theorems C45-C48, C64, C65, C68 (QCoroIODevice).

    Vocabulary: QtModel.v (machine), QtSpec.v (call_spec, call_ends, behaves, quiet), QtObj.v (the objects), QtIO.v (the code),
    QtIOSpec.v (what it should do). [c] ranges over the wrapper classes: QIODevice, QAbstractSocket, QLocalSocket,
    QNetworkReply. Trace segments are newest first. [whelp s0 = None]: the coroutine is not in the middle of another wait. *)
From stdpp Require Import list.
From Coq Require Import ZArith.
From Verif Require Import TaskRun.
From Verif Require Import QtModel QtSpec QtInv QtAwait QtReach QtWrap QtTrace QtBehave QtCall QtEnds QtCall2 QtEnds2 QtObj QtIO QtIOSpec QtIOFacts QtIOEnds PropsSignal.

Section io.
Context {O A : Type}.
Notation wstate := (@wstate qobj sig arg O A).
Notation wprog := (@wprog qobj sig arg O A).

(** ** C45 *)

(** readAll(timeout), read(n, timeout), readLine(n, timeout): the result is empty if waitForReadyRead() said no (not
    readable or timeout), else the front of what can be read at that moment, which is taken away. The call can only fail if
    the device was destroyed meanwhile. *)
Theorem C45_read denv (s0 : wstate) c r to :
  reach denv s0 -> wubs s0 = None -> noleak s0 -> walive s0 = true -> whelp s0 = None ->
  call_spec denv s0 (λ k : list byte -> wprog, read c r to k) (λ u l, u = WDead ∧ TDestroy ∈ l) (λ b l s, read_result c r (wdev s0) to b l (wdev s)).
Proof. intros. apply cspec_call; try done. eapply cspec_mono; [by apply cspec_read|done|]. by intros b l s _ [? _]. Qed.

(** The call does end: by the signals of [wakes_read] or the timeout. *)
Theorem C45_read_ends denv (s0 : wstate) c r to :
  reach denv s0 -> wubs s0 = None -> noleak s0 -> walive s0 = true -> whelp s0 = None ->
  call_ends denv s0 (λ k : list byte -> wprog, read c r to k) (λ l, (∃ sg a, TEmit sg a ∈ l ∧ wakes_read c sg a) ∨ ∃ n, to = Some n ∧ n ≤ elapsed l).
Proof. intros. apply cends_call; try done. by apply cends_read. Qed.

(** Successive reads return exactly the bytes that were there and those that arrived, in order: what they returned, followed
    by what can still be read. *)
Theorem C45_stream denv (s0 : wstate) c rs : appends denv ->
  reach denv s0 -> wubs s0 = None -> noleak s0 -> walive s0 = true -> whelp s0 = None ->
  call_spec denv s0 (λ k : list (list byte) -> wprog, read_each c rs [] k) (λ u l, u = WDead ∧ TDestroy ∈ l)
    (λ bs l s, length bs = length rs ∧ o_data (wdev s0) ++ arrived (wdev s0) l = concat bs ++ o_data (wdev s)).
Proof.
  intros Hap ? ? ? Ha ?. apply cspec_call; try done. eapply cspec_mono; [by apply cspec_read_each|..]; cbn beta.
  - intros u l [? Hd]. auto.
  - intros bs l s _ (bs' & -> & ? & _ & Hs). auto.
Qed.

(** co_await device *)
Theorem C45_co_await_device denv (s0 : wstate) :
  reach denv s0 -> wubs s0 = None -> noleak s0 -> walive s0 = true -> whelp s0 = None ->
  call_spec denv s0 (λ k : list byte -> wprog, co_await_device k) (λ u l, u = WDead ∧ TDestroy ∈ l) (λ b l s, read_device (wdev s0) b l (wdev s)).
Proof. intros. apply cspec_call; try done. eapply cspec_mono; [by apply cspec_co_await_device|done|]. by intros b l s _ [? _]. Qed.
Theorem C45_co_await_device_ends denv (s0 : wstate) :
  reach denv s0 -> wubs s0 = None -> noleak s0 -> walive s0 = true ->
  call_ends denv s0 (λ k : list byte -> wprog, co_await_device k) (λ l, ∃ a, TEmit ReadyRead a ∈ l ∨ TEmit AboutToClose a ∈ l).
Proof. intros. apply cends_call; try done. by apply cends_co_await_device. Qed.

(** ** C46: what waitForReadyRead() says, exactly; true does not mean that there is data, see C46_refuted. *)
Theorem C46_ready_read_partial denv (s0 : wstate) c to :
  reach denv s0 -> wubs s0 = None -> noleak s0 -> walive s0 = true -> whelp s0 = None ->
  call_spec denv s0 (λ k : bool -> wprog, waitForReadyRead c to k) (λ _ _, False) (λ b l s, ready_read c (wdev s0) to b l ∧ wdev s = dev_after (wdev s0) l).
Proof.
  intros. apply cspec_call; try done. eapply cspec_mono; [by apply (cspec_waitForReadyRead denv c to s0 (λ _ _, False))|done|].
  intros b l s _ (? & Hk & _). split; [done|]. apply Hk.
Qed.
Theorem C46_ends denv (s0 : wstate) c to :
  reach denv s0 -> wubs s0 = None -> noleak s0 -> walive s0 = true -> whelp s0 = None ->
  call_ends denv s0 (λ k : bool -> wprog, waitForReadyRead c to k) (λ l, (∃ sg a, TEmit sg a ∈ l ∧ wakes_read c sg a) ∨ ∃ n, to = Some n ∧ n ≤ elapsed l).
Proof. intros. apply cends_call; try done. by apply cends_waitForReadyRead. Qed.

(** ** C47 *)

(** waitForBytesWritten(timeout) *)
Theorem C47_bytes_written denv (s0 : wstate) c to :
  reach denv s0 -> wubs s0 = None -> noleak s0 -> walive s0 = true -> whelp s0 = None ->
  call_spec denv s0 (λ k : option arg -> wprog, waitForBytesWritten c to k) (λ _ _, False)
    (λ v l s, bytes_written c (wdev s0) to (int_of <$> v) l ∧ wdev s = dev_after (wdev s0) l).
Proof.
  intros. apply cspec_call; try done. eapply cspec_mono; [by apply (cspec_waitForBytesWritten denv c to s0 (λ _ _, False))|done|].
  intros b l s _ (? & Hk & _). split; [done|]. apply Hk.
Qed.

(** write(): QIODevice::write() accepts [total] bytes, goes to state [d1] and emits [ems]. If write() returns [n] then [n] is
    the sum of the values of a number of waits for bytesWritten; it is at least [total], or the device was closed (not
    writable, or a socket that is not connected). It fails only if the device or the wrapper object was destroyed. *)
Theorem C47_write denv (s0 : wstate) c wr total d1 ems :
  reach denv s0 -> wubs s0 = None -> noleak s0 -> walive s0 = true -> whelp s0 = None -> wr (wdev s0) = (total, d1, ems) ->
  call_spec denv s0 (λ k : Z -> wprog, write c wr k)
    (λ u l, u = WDead ∧ TDestroy ∈ l ∨ u = WUndef ∧ o_wrapper (dev_after (wdev s0) l) = false)
    (λ n l s, ∃ l1 l0, l = l1 ++ l0 ++ [TDev d1] ∧ l0 = reverse (map (λ e, TEmit (fst e) (snd e)) ems) ∧ flushed c d1 l1 n ∧
       ((total ≤ n)%Z ∨ o_writable (wdev s) = false ∨ (is_socket c ∧ o_state (wdev s) ≠ SConnected))).
Proof.
  intros Hr Hu Hl Ha Hh Hw. apply cspec_call; try done. pose proof (cspec_write denv c wr s0 Ha Hh) as H. rewrite Hw in H.
  eapply cspec_mono; [exact H|by intros u l [? _]|]. intros n l s _ (l1 & -> & Hf & _ & Hor & _). exists l1, (emitted_by ems). split; [done|]. split; [done|]. split; [done|].
  destruct Hor as [?|[? _]]; auto.
Qed.

(** ** C48 *)

(** When the device has nothing (more) to write but fewer bytes than accepted were reported to write(), it never returns and
    nothing else happens any more in this thread. *)
Theorem C48_spins denv (s0 s : wstate) c wr k total d1 ems :
  reach denv s0 -> wubs s0 = None -> noleak s0 -> walive s0 = true -> whelp s0 = None -> wr (wdev s0) = (total, d1, ems) ->
  o_wrapper d1 = true -> o_writable d1 = true -> o_towrite d1 = 0%Z ∨ (c = NetworkReply ∧ o_finished d1 = true) -> (0 < total)%Z ->
  wco s0 = CRun (write c wr k) -> exec denv s0 s ->
  s = s0 ∨ (step s ≠ Idle ∧ wubs s = None ∧ wtrace s = reverse (map (λ e, TEmit (fst e) (snd e)) ems) ++ TDev d1 :: wtrace s0).
Proof.
  intros Hr Hu Hl Ha Hh Hw Hwr Hwd Hno Ht Hc Hx. pose proof (reach_clean _ _ _ Hr Hu Hc) as Hcl.
  set (s1 := wlogs (emitted_by ems) (wlog (TDev d1) (set_dev d1 (set_co (CRun (write_loop c total 0 k)) s0)))).
  assert (Hst : step s0 = Next s1).
  { unfold step. rewrite Hu, Hc. unfold write. rewrite Ha, Hw. cbn [fst snd]. rewrite emits_logged; [done|apply Hcl|done|done]. }
  destruct (exec_inv _ _ _ Hx) as [?|[(s1' & Hst' & Hx')|(e & s1' & Hst' & _)]]; [by left| |congruence]. right.
  rewrite Hst in Hst'. injection Hst' as <-. change s1 with (set_co (CRun (write_loop c total 0 k)) s1) in Hx'.
  destruct (spin_exec denv c total k (write_loop c total 0 k) s1 s) as (p' & Hp & ->); try done; [by constructor|].
  split; [|split; [done|reflexivity]].
  destruct (spin_step c total k p' s1) as (p2 & _ & ->); done.
Qed.

(** The waits inside write() do end, though. *)
Theorem C48_waits_end_partial denv (s0 : wstate) c to :
  reach denv s0 -> wubs s0 = None -> noleak s0 -> walive s0 = true -> whelp s0 = None ->
  call_ends denv s0 (λ k : option arg -> wprog, waitForBytesWritten c to k)
    (λ l, (∃ sg a, TEmit sg a ∈ l ∧ ∃ v, wakes_write c sg a v) ∨ ∃ n, to = Some n ∧ n ≤ elapsed l).
Proof. intros. apply cends_call; try done. by apply cends_waitForBytesWritten. Qed.
End io.
Print Assumptions C45_read.
Print Assumptions C45_read_ends.
Print Assumptions C45_stream.
Print Assumptions C45_co_await_device.
Print Assumptions C45_co_await_device_ends.
Print Assumptions C46_ready_read_partial.
Print Assumptions C46_ends.
Print Assumptions C47_bytes_written.
Print Assumptions C47_write.
Print Assumptions C48_spins.
Print Assumptions C48_waits_end_partial.

(** ** Examples and counterexamples *)
Notation qprog O := (@wprog qobj sig arg O unit).
Definition with_data (x : list byte) : qobj := set_data x device.
Definition closed (d : qobj) : qobj := QObj false false false [] 0 Unconnected (o_finished d) (o_running d) (o_proc d) (o_listening d) (o_pending d) (o_active d) (o_wrapper d).
Definition to_write (n : Z) (d : qobj) : qobj := QObj (o_open d) (o_readable d) (o_writable d) (o_data d) n (o_state d) (o_finished d) (o_running d) (o_proc d) (o_listening d) (o_pending d) (o_active d) (o_wrapper d).
Definition no_wrapper (d : qobj) : qobj := QObj (o_open d) (o_readable d) (o_writable d) (o_data d) (o_towrite d) (o_state d) (o_finished d) (o_running d) (o_proc d) (o_listening d) (o_pending d) (o_active d) false.

(** Three reads: "ab" arrives, then "c\nd" during the second, which times out... *)
Definition stream : qobj -> list (sig * arg) -> qobj -> Prop := λ d _ d', ∃ x, o_data d' = o_data d ++ x.
Definition prog45 : qprog (list byte) :=
  read_each IODevice [(RMax 1, None); (RAll, None); (RLine 0, Some 3); (RAll, Some 2)] [] (λ bs, foldr WObs (WRet tt) bs).
Definition run45 := wplay 60 [EvDev (with_data [1; 2]) [(ReadyRead, ANone)]; EvPosted; EvTick; EvDev (with_data [3; 10; 4]) [(ReadyRead, ANone)]; EvPosted; EvTick]
  (winit device true prog45).
Example ex45 : reach stream run45 ∧ appends stream ∧ reverse (omap (λ e, match e with TObs b => Some b | _ => None end) (wtrace run45)) = [[1]; [2]; [3; 10]; [4]].
Proof.
  split; [|split].
  - apply wplay_reach. vm_compute. split; [by eexists|]. split; [done|]. split; [done|]. split; [by eexists|]. split; [done|]. done.
  - intros d ems d' H. exact H.
  - vm_compute. reflexivity.
Qed.
Example ex45_hyps : let s0 : @wstate qobj sig arg (list byte) unit := winit device true prog45 in
  reach stream s0 ∧ wubs s0 = None ∧ noleak s0 ∧ walive s0 = true ∧ whelp s0 = None.
Proof. split; [apply (wplay_reach stream 0 []); allowed|done]. Qed.

(** C46 is violated: a device that is closed without any data makes waitForReadyRead() say true; so does a socket that was
    never connected, at once. *)
Definition prog46 (c : cls) : qprog bool := waitForReadyRead c None (λ b, WObs b (WRet tt)).
Theorem C46_refuted : ∃ s s' : @wstate qobj sig arg bool unit, reach anything s ∧ reach anything s' ∧
  (∀ d, TDev d ∈ wtrace s -> o_data d = [] ∧ o_open d = false) ∧ o_open (wdev s) = false ∧ (∀ sg a, TEmit sg a ∈ wtrace s -> sg = AboutToClose) ∧ TObs true ∈ wtrace s ∧
  o_data (wdev s') = [] ∧ o_state (wdev s') = Unconnected ∧ wtrace s' = [TRet tt; TObs true].
Proof.
  set (s := wplay 20 [EvDev (closed device) [(AboutToClose, ANone)]; EvPosted] (winit device true (prog46 IODevice))).
  set (un := QObj true true true [] 0 Unconnected false false NotRunning false [] false true).
  set (s' := wplay 20 [] (winit un true (prog46 AbstractSocket))).
  assert (Ht : wtrace s = [TRet tt; TObs true; TResume (Some (ABool false)); TReady (ABool false); TEmit AboutToClose ANone; TDev (closed device); TSusp FromHelper None]) by (vm_compute; reflexivity).
  assert (Hs' : o_data (wdev s') = [] ∧ o_state (wdev s') = Unconnected ∧ wtrace s' = [TRet tt; TObs true]) by (split; [|split]; vm_compute; reflexivity).
  assert (Hr : reach anything s) by (apply wplay_reach; allowed). assert (Hr' : reach anything s') by (apply wplay_reach; allowed).
  assert (Ho : o_open (wdev s) = false) by (vm_compute; reflexivity).
  clearbody s s'. exists s, s'. split; [done|]. split; [done|].
  assert (Hall : Forall (λ e, match e with TDev d => o_data d = [] ∧ o_open d = false | TEmit sg _ => sg = AboutToClose | _ => True end) (wtrace s)).
  { rewrite Ht. repeat constructor. }
  rewrite Forall_forall in Hall.
  split; [intros d Hd; apply (Hall _ Hd)|]. split; [done|]. split; [intros sg a Hd; apply (Hall _ Hd)|]. split; [rewrite Ht; in_|]. done.
Qed.
Print Assumptions C46_refuted.

(** write(): 5 bytes, confirmed in two steps. *)
Definition accepts (n : Z) : qobj -> Z * qobj * list (sig * arg) := λ d, (n, to_write n d, []).
Definition prog47 (wr : qobj -> Z * qobj * list (sig * arg)) : qprog Z := write IODevice wr (λ n, WObs n (WRet tt)).
Example ex47 : wtrace (wplay 60 [EvDev (to_write 2 device) [(BytesWritten, AInt 3)]; EvPosted; EvDev (to_write 0 device) [(BytesWritten, AInt 2)]; EvPosted]
    (winit device true (prog47 (accepts 5)))) =
  [TRet tt; TObs 5%Z; TResume (Some (AInt 2)); TReady (AInt 2); TEmit BytesWritten (AInt 2); TDev device; TSusp FromHelper None;
   TResume (Some (AInt 3)); TReady (AInt 3); TEmit BytesWritten (AInt 3); TDev (to_write 2 device); TSusp FromHelper None; TDev (to_write 5 device)].
Proof. vm_compute. reflexivity. Qed.
Example ex47_hyps : let s0 : @wstate qobj sig arg Z unit := winit device true (prog47 (accepts 5)) in
  reach anything s0 ∧ wubs s0 = None ∧ noleak s0 ∧ walive s0 = true ∧ whelp s0 = None ∧ accepts 5 (wdev s0) = (5%Z, to_write 5 device, []).
Proof. split; [apply (wplay_reach anything 0 []); allowed|done]. Qed.

(** C48 is violated: a device that writes at once (a QBuffer, an unbuffered QFile) and reports it within write(); and a
    buffered one that reports twice before the coroutine was resumed. *)
Definition late48 := wplay 8 [EvDev (to_write 0 device) [(BytesWritten, AInt 3); (BytesWritten, AInt 2)]; EvPosted] (winit device true (prog47 (accepts 5))).
Lemma late48_trace : wtrace late48 = [TResume (Some (AInt 3)); TEmit BytesWritten (AInt 2); TReady (AInt 3); TEmit BytesWritten (AInt 3); TDev device; TSusp FromHelper None; TDev (to_write 5 device)].
Proof. vm_compute. reflexivity. Qed.
Lemma late48_co : wco late48 = CRun (write_loop IODevice 5 3 (λ n, WObs n (WRet tt))). Proof. reflexivity. Qed.
Lemma late48_reach : reach anything late48. Proof. apply wplay_reach; allowed. Qed.
Lemma late48_state : wubs late48 = None ∧ walive late48 = true ∧ wdev late48 = device. Proof. vm_compute. done. Qed.
Lemma spins_from (s1 s : @wstate qobj sig arg Z unit) k : wco s1 = CRun (write_loop IODevice 5 3 k) -> wubs s1 = None -> walive s1 = true -> wdev s1 = device ->
  exec anything s1 s -> step s ≠ Idle ∧ wtrace s = wtrace s1.
Proof.
  intros Hc Hu Ha Hd Hx. rewrite (set_co_same _ _ Hc) in Hx. destruct (spin_exec anything IODevice 5 k (write_loop IODevice 5 3 k) s1 s) as (p' & Hp & ->); try done.
  - by constructor.
  - by rewrite Hd.
  - rewrite Hd. split; [done|by left].
  - destruct (spin_step IODevice 5 k p' s1) as (p2 & _ & E); try done; [by rewrite Hd|rewrite Hd; split; [done|by left]|].
    split; [by rewrite E|done].
Qed.
Theorem C48_refuted :
  (∃ s0 : @wstate qobj sig arg Z unit, reach anything s0 ∧ o_towrite (wdev s0) = 0%Z ∧ wco s0 = CRun (prog47 (λ d, (5%Z, d, [(BytesWritten, AInt 5)]))) ∧
     ∀ s, exec anything s0 s -> step s ≠ Idle ∧ ∀ o, TObs o ∉ wtrace s) ∧
  (∃ s1 : @wstate qobj sig arg Z unit, reach anything s1 ∧ o_towrite (wdev s1) = 0%Z ∧ TEmit BytesWritten (AInt 3) ∈ wtrace s1 ∧ TEmit BytesWritten (AInt 2) ∈ wtrace s1 ∧
     ∀ s, exec anything s1 s -> step s ≠ Idle ∧ ∀ o, TObs o ∉ wtrace s).
Proof.
  split.
  - exists (winit device true (prog47 (λ d, (5%Z, d, [(BytesWritten, AInt 5)])))).
    assert (Hr : reach anything (winit device true (prog47 (λ d, (5%Z, d, [(BytesWritten, AInt 5)]))))) by (apply (wplay_reach anything 0 []); allowed).
    split; [done|]. split; [done|]. split; [done|]. intros s Hx.
    destruct (C48_spins anything _ s IODevice (λ d, (5%Z, d, [(BytesWritten, AInt 5)])) (λ n, WObs n (WRet tt)) 5 device [(BytesWritten, AInt 5)] Hr) as [->|(? & _ & Ht)]; try done; [by left|..].
    + split; [done|]. by intros o ?%elem_of_nil.
    + split; [done|]. intros o. rewrite Ht. cbn. rewrite !elem_of_cons. intros [?|[?|?%elem_of_nil]]; done.
  - pose proof late48_trace as Ht. pose proof late48_co as Hc. pose proof late48_reach as Hr. pose proof late48_state as (Hu & Ha & Hd).
    exists late48. generalize dependent late48. intros s1 Ht Hc Hr Hu Ha Hd. split; [done|]. rewrite Hd. split; [done|]. split; [rewrite Ht; in_|]. split; [rewrite Ht; in_|].
    intros s Hx. destruct (spins_from s1 s _ Hc Hu Ha Hd Hx) as [? ->]. split; [done|]. rewrite Ht.
    intros o. rewrite !elem_of_cons. clear. intros [?|[?|[?|[?|[?|[?|[?|?%elem_of_nil]]]]]]]; done.
Qed.
Print Assumptions C48_refuted.

(** ** C64: readLine() repeatedly waits until there is a complete line (violated)

    The documentation says so; it waits once: of a line that arrives in two parts, the first is returned. *)
Definition prog64 : qprog (list byte) := read IODevice (RLine 0) None (λ b, WObs b (WRet tt)).
Definition run64 := wplay 60 [EvDev (with_data [1; 2]) [(ReadyRead, ANone)]; EvPosted] (winit device true prog64).
Lemma run64_reach : reach stream run64.
Proof. apply wplay_reach. split; [exists [1; 2]; reflexivity|]. vm_compute. done. Qed.
Theorem C64_refuted : ∃ s : @wstate qobj sig arg (list byte) unit, reach stream s ∧ TObs [1; 2] ∈ wtrace s ∧ o_open (wdev s) = true ∧
  (∀ d, TDev d ∈ wtrace s -> o_open d = true ∧ 10%nat ∉ o_data d).
Proof.
  assert (Ht : wtrace run64 = [TRet tt; TObs [1; 2]; TDev device; TResume (Some (ABool true)); TReady (ABool true); TEmit ReadyRead ANone; TDev (with_data [1; 2]); TSusp FromHelper None]) by (vm_compute; reflexivity).
  assert (Ho : o_open (wdev run64) = true) by (vm_compute; reflexivity). pose proof run64_reach as Hr.
  exists run64. generalize dependent run64. intros s Ht Ho Hr. split; [done|]. split; [rewrite Ht; in_|]. split; [done|].
  assert (Hall : Forall (λ e, match e with TDev d => o_open d = true ∧ 10%nat ∉ o_data d | _ => True end) (wtrace s)).
  { rewrite Ht. repeat constructor; cbn; [by intros ?%elem_of_nil|]. rewrite !elem_of_cons. intros [?|[?|?%elem_of_nil]]; done. }
  rewrite Forall_forall in Hall. intros d Hd. apply (Hall _ Hd).
Qed.
Print Assumptions C64_refuted.

(** ** C65: write() does not need the wrapper object any more once called (violated)

    Only the wrapper goes away while the first wait is suspended, and then the first part is confirmed. (By C47_write this is
    the only way to WUndef.) *)
Theorem C65_refuted : ∃ s : @wstate qobj sig arg Z unit, reach anything s ∧ walive s = true ∧ wubs s = Some WUndef ∧
  wtrace s = [TResume (Some (AInt 3)); TReady (AInt 3); TEmit BytesWritten (AInt 3); TDev (no_wrapper (to_write 2 device)); TDev (no_wrapper (to_write 5 device)); TSusp FromHelper None; TDev (to_write 5 device)].
Proof.
  exists (wplay 60 [EvDev (no_wrapper (to_write 5 device)) []; EvDev (no_wrapper (to_write 2 device)) [(BytesWritten, AInt 3)]; EvPosted] (winit device true (prog47 (accepts 5)))).
  split; [apply wplay_reach; allowed|]. vm_compute. done.
Qed.
Print Assumptions C65_refuted.

(** ** C68: reads survive the destruction of the device (violated)

    Data arrives, and the device is destroyed before the coroutine is resumed: null pointer. (By C45_read destruction is the
    only way to this.) *)
Theorem C68_refuted : ∃ s : @wstate qobj sig arg (list byte) unit, reach stream s ∧ wubs s = Some WDead ∧
  wtrace s = [TResume (Some (ABool true)); TDestroy; TReady (ABool true); TEmit ReadyRead ANone; TDev (with_data [1; 2]); TSusp FromHelper None].
Proof.
  exists (wplay 60 [EvDev (with_data [1; 2]) [(ReadyRead, ANone)]; EvDestroy; EvPosted] (winit device true prog64)).
  split; [apply wplay_reach; vm_compute; split; [by eexists|done]|]. vm_compute. done.
Qed.
Print Assumptions C68_refuted.
(** Without data the read does end by the timeout when the device was destroyed meanwhile: C45_read_ends does not ask for the device. *)
