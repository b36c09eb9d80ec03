(** * Property theorems C117: what happens to a read or write when the device is destroyed (or was null).

    Vocabulary: QtModel.v, QtSpec.v (call_spec), QtIO.v, QtIOSpec.v (ready_read, read_result, flushed), as in PropsIO.v.
    [walive s0 = false]: the pointer given to qCoro() is null, or its device was destroyed. *)
From stdpp Require Import list.
From Coq Require Import ZArith.
From Verif Require Import TaskRun.
From Verif Require Import QtModel QtSpec QtInv QtAwait QtReach QtWrap QtTrace QtBehave QtCall QtEnds QtCall2 QtEnds2 QtObj QtIO QtIOSpec QtIOFacts QtIOEnds PropsSignal PropsIO QtLife.

Section life.
Context {O A : Type}.
Notation wstate := (@wstate qobj sig arg O A).
Notation wprog := (@wprog qobj sig arg O A).
Notation tev := (@tev qobj sig arg O A).

(** One of the functions of QCoroIODevice, or "co_await device". *)
Inductive io_call : wprog -> Prop :=
  | ic_read c r to k : io_call (read c r to k)
  | ic_ready c to k : io_call (waitForReadyRead c to k)
  | ic_written c to k : io_call (waitForBytesWritten c to k)
  | ic_write c wr k : io_call (write c wr k)
  | ic_device k : io_call (co_await_device k).

(** Called on a null pointer or a destroyed device: every execution ends in undefined behaviour, before anything else happens.
    In particular "co_await device" with a null pointer, which its awaiter seems to provide for. *)
Theorem C117_null denv (s0 s : wstate) p : wubs s0 = None -> walive s0 = false -> io_call p -> wco s0 = CRun p -> exec denv s0 s ->
  wtrace s = wtrace s0 ∧ (step s = Idle -> wubs s = Some WDead) ∧ ∃ s', exec denv s s' ∧ wubs s' = Some WDead.
Proof.
  intros Hu Ha Hp Hc Hx.
  assert (Hd : ∀ s2 : wstate, wubs s2 = None -> walive s2 = false -> (∃ f, wco s2 = CRun (WGet f)) ∨ (∃ f g, wco s2 = CRun (WCall f g)) -> step s2 = Next (wfail WDead s2)).
  { intros s2 Hu2 Ha2 [[f Hf]|(f & g & Hf)]; unfold step; rewrite Hu2, Hf, Ha2; done. }
  assert (H1 : ∀ s1 : wstate, step s1 = Next (wfail WDead s1) -> exec denv s1 s -> wtrace s = wtrace s1 ∧ (step s = Idle -> wubs s = Some WDead) ∧ ∃ s', exec denv s s' ∧ wubs s' = Some WDead).
  { intros s1 Hst Hx1. destruct (dead_call denv s1 _ s WDead Hst) as [->|[? ?]]; try done.
    - split; [done|]. rewrite Hst. split; [done|]. exists (wfail WDead s1). split; [|done]. eapply exec_step; [constructor|done].
    - split; [done|]. split; [done|]. exists s. split; [constructor|done]. }
  destruct Hp as [c r to k|c to k|c to k|c wr k|k]; try (apply H1; [apply Hd; [done|done|left; by eexists]|done]); [apply H1; [apply Hd; [done|done|right; by eexists _, _]|done]|].
  unfold co_await_device in Hc.
  assert (Hst : step s0 = Next (set_co (CRun (dev_read RAll k)) s0)) by (unfold step; rewrite Hu, Hc, Ha; done).
  set (s1 := set_co (CRun (dev_read RAll k)) s0) in *.
  assert (Hst1 : step s1 = Next (wfail WDead s1)) by (apply Hd; [done|done|]; right; by eexists _, _).
  destruct (exec_inv _ _ _ Hx) as [->|[(s1' & Hst' & Hx')|(e & s1' & Hst' & _)]]; [| |congruence].
  - split; [done|]. rewrite Hst. split; [done|]. exists (wfail WDead s1). split; [|done]. eapply exec_step; [eapply exec_step; [constructor|done]|done].
  - rewrite Hst in Hst'. injection Hst' as <-. by destruct (H1 s1 Hst1 Hx').
Qed.

(** readAll(), read(), readLine(), exactly: if the device is destroyed during the call, the call returns only by its timeout,
    nothing; if the wait was ended by a signal of the device (emitted before) and not by the timeout, the call is undefined.
    A device that lives as long as the call cannot make it undefined. *)
Theorem C117_read denv (s0 : wstate) c r to :
  reach denv s0 -> wubs s0 = None -> noleak s0 -> walive s0 = true -> whelp s0 = None ->
  call_spec denv s0 (λ k : list byte -> wprog, read c r to k) (λ u l, u = WDead ∧ TDestroy ∈ l ∧ ready_read c (wdev s0) to true l)
    (λ b l s, read_result c r (wdev s0) to b l (wdev s) ∧ (TDestroy ∈ l -> b = [] ∧ ready_read c (wdev s0) to false l)).
Proof.
  intros Hr Hu Hl Ha Hh. apply cspec_call; try done. unfold read.
  apply (cspec_bind denv s0 (λ k, waitForReadyRead c to k) (λ b k, if b then dev_read r k else k []) _ (λ b l s, ready_read c (wdev s0) to b l ∧ kept s0 s l ∧ behaves denv (wdev s0) l)).
  - by apply cspec_waitForReadyRead.
  - intros [|] l s2 Hg (Hrr & Hk & Hb) Hin.
    + apply cspec_dev_read.
      * intros Ha2 b y Hrd co d'. cbn. split.
        -- unfold d' in *. rewrite (ke_dev _ _ _ Hk) in Hrd |- *. by apply (re_bytes c r (wdev s0) to l b y).
        -- intros [?|Hd]%elem_of_cons; [done|]. rewrite (ke_dead _ _ _ Hk Hd) in Ha2. done.
      * intros Hd. split; [done|]. cbn. split; [|done]. by eapply dead_destroyed; [apply Hk| |].
    + apply (cspec_ret denv s2 []). intros co. cbn. split; [|done]. rewrite (ke_dev _ _ _ Hk). by constructor.
Qed.

(** "co_await device": if the device is destroyed meanwhile, the co_await does not evaluate to anything; it is undefined if the
    device emitted readyRead or aboutToClose before. *)
Theorem C117_device denv (s0 : wstate) :
  reach denv s0 -> wubs s0 = None -> noleak s0 -> walive s0 = true -> whelp s0 = None ->
  call_spec denv s0 (λ k : list byte -> wprog, co_await_device k)
    (λ u l, u = WDead ∧ TDestroy ∈ l ∧ ∃ a, TEmit ReadyRead a ∈ l ∨ TEmit AboutToClose a ∈ l)
    (λ b l s, read_device (wdev s0) b l (wdev s) ∧ TDestroy ∉ l).
Proof.
  intros Hr Hu Hl Ha Hh. apply cspec_call; try done. unfold co_await_device.
  apply (cspec_alive denv s0 (λ b k, if b then WGet (λ d, if negb (o_open d) || negb (o_readable d) || avail d then dev_read RAll k
     else WAwait MShot (FromDev read_or_close) None (λ _, dev_read RAll k)) else dev_read RAll k)). rewrite Ha.
  apply (cspec_get denv s0 (λ d k, if negb (o_open d) || negb (o_readable d) || avail d then dev_read RAll k else WAwait MShot (FromDev read_or_close) None (λ _, dev_read RAll k))); [done|].
  destruct (negb (o_open (wdev s0)) || negb (o_readable (wdev s0)) || avail (wdev s0)) eqn:Er.
  - apply cspec_dev_read; [|congruence]. intros _ b y [Hrd Hy] co d'. subst y. rewrite app_nil_r in Hrd. split; [|by intros ?%elem_of_list_singleton].
    subst b. apply rd_now. apply orb_true_iff in Er as [[E|E]%orb_true_iff|E]; [left; by apply negb_true_iff|right; left; by apply negb_true_iff|right; right].
    unfold avail in E. intros E'. by rewrite E' in E.
  - apply orb_false_iff in Er as [[Eo%negb_false_iff Er%negb_false_iff]%orb_false_iff Ed].
    apply (cspec_bind denv s0 (λ k, WAwait MShot (FromDev read_or_close) None k) (λ _ k, dev_read RAll k) _
      (λ v l s, (∃ sg a lw, l = TResume v :: lw ++ [TSusp (FromDev read_or_close) None] ∧ quiet lw ∧ TEmit sg a ∈ lw ∧ (sg = ReadyRead ∨ sg = AboutToClose)) ∧ kept s0 s l)).
    + apply cspec_await; [done|by intros []|]. intros v l s2 Hw _. split; [|by apply waited_kept]. destruct Hw. destruct v as [p|]; [|by destruct wd_res as (? & ? & ? & _)].
      destruct wd_res as [Hhd _]. assert (Hin : p ∈ emissions (FromDev read_or_close) l) by (destruct (emissions _ l); [done|]; cbn in Hhd; injection Hhd as ->; left).
      apply elem_of_list_omap in Hin as (e & He & Ho). rewrite elem_of_reverse in He. destruct e as [|sg a| | | | | | | | |]; try done.
      exists sg, a, l. split; [done|]. split; [done|]. split; [done|]. destruct sg; try done; auto.
    + intros v l s2 Hg [(sg & a & lw & -> & Hq & Hin & Hsg) Hk] _. apply cspec_dev_read.
      * intros Ha2 b y [Hrd Hy] co d'. subst y. rewrite app_nil_r in Hrd. split.
        -- subst b. unfold d'. rewrite (ke_dev _ _ _ Hk). cbn [app]. eapply rd_wait; try done. unfold avail in Ed. by destruct (o_data (wdev s0)).
        -- cbn [app]. intros [?|Hd]%elem_of_cons; [done|]. rewrite (ke_dead _ _ _ Hk Hd) in Ha2. done.
      * intros Hd. split; [done|]. cbn [app]. split; [by eapply dead_destroyed; [apply Hk| |]|]. exists a.
        assert (TEmit sg a ∈ TResume v :: lw ++ [TSusp (FromDev read_or_close) None]) by (right; apply elem_of_app; by left).
        destruct Hsg as [-> | ->]; auto.
Qed.

(** The call has to wait: the device is open, readable and has no data. *)
Definition must_wait (c : cls) (d : qobj) : Prop :=
  o_readable d = true ∧ o_data d = [] ∧ (is_socket c -> o_state d = SConnected) ∧ (c = NetworkReply -> o_finished d = false).

(** A read without timeout whose device is destroyed without having emitted a signal that ends the wait: it waits for ever. *)
Theorem C117_hangs denv (s0 s s' : wstate) c r k lw :
  reach denv s0 -> wubs s0 = None -> noleak s0 -> walive s0 = true -> whelp s0 = None -> must_wait c (wdev s0) ->
  wco s0 = CRun (read c r None k) -> exec denv s0 s -> wtrace s = lw ++ TSusp FromHelper None :: wtrace s0 -> quiet lw -> TDestroy ∈ lw ->
  (∀ sg a, TEmit sg a ∈ lw -> ¬ wakes_read c sg a) -> exec denv s s' ->
  wubs s' = None ∧ ∃ x, wtrace s' = x ++ wtrace s ∧ quiet x.
Proof.
  intros Hr Hu Hl Ha Hh (Hrd & Hdt & Hso & Hfi) Hc Hx Ht Hq Hd Hno Hx'. pose proof (reach_clean _ _ _ Hr Hu Hc) as Hcl.
  assert (Hne : wtrace s ≠ wtrace s0). { rewrite Ht. intros E. apply (f_equal length) in E. rewrite app_length in E. cbn in E. lia. }
  set (k' := λ r0 : option arg, if has_value r0 then dev_read r k else k []).
  assert (Hst : step s0 = Next (set_co (CRun (ready_impl c None k')) s0)).
  { unfold step. rewrite Hu, Hc. unfold read, waitForReadyRead. rewrite Ha, Hrd. unfold avail. rewrite Hdt. done. }
  destruct (exec_skip _ _ _ _ Hst eq_refl Hx Hne) as [Hx1 Hne1].
  assert (Hgo : ∀ s1 : wstate, exec denv s1 s -> wco s1 = CRun (qCoro_helper (ready_helper c) None k') -> (∃ co, s1 = set_co co s0) -> wubs s' = None ∧ ∃ x, wtrace s' = x ++ wtrace s ∧ quiet x).
  { intros s1 Hxs Hc1 [co ->]. eapply (helper_hang denv (ready_helper c) k' (set_co co s0) s s' lw); try done; [destruct Hcl; split; done|].
    destruct (relays (ready_helper c) (wdev (set_co co s0)) lw) as [|[b q] rs] eqn:E; [done|exfalso].
    destruct (relays_in (ready_helper c) (wdev s0) lw b q) as (sg & a & o & l1 & l2 & El & Er); [cbn in E; rewrite E; left|].
    apply (Hno sg a); [rewrite El; apply elem_of_app; right; left|]. apply (ready_relay c sg a (dev_after (wdev s0) l2)). eauto. }
  destruct c; cbn [ready_impl] in *.
  - eapply Hgo; [exact Hx1|done|by eexists].
  - assert (Hst1 : step (set_co (CRun (ready_impl AbstractSocket None k')) s0) = Next (set_co (CRun (qCoro_helper (ready_helper AbstractSocket) None k')) s0)).
    { unfold step. cbn -[qCoro_helper]. rewrite Hu, Ha. unfold sconnected. rewrite Hso by (by left). done. }
    destruct (exec_skip _ _ _ _ Hst1 eq_refl Hx1 Hne1) as [Hx2 _]. eapply Hgo; [exact Hx2|done|by eexists].
  - assert (Hst1 : step (set_co (CRun (ready_impl LocalSocket None k')) s0) = Next (set_co (CRun (qCoro_helper (ready_helper LocalSocket) None k')) s0)).
    { unfold step. cbn -[qCoro_helper]. rewrite Hu, Ha. unfold sconnected. rewrite Hso by (by right). done. }
    destruct (exec_skip _ _ _ _ Hst1 eq_refl Hx1 Hne1) as [Hx2 _]. eapply Hgo; [exact Hx2|done|by eexists].
  - assert (Hst1 : step (set_co (CRun (ready_impl NetworkReply None k')) s0) = Next (set_co (CRun (qCoro_helper (ready_helper NetworkReply) None k')) s0)).
    { unfold step. cbn -[qCoro_helper]. rewrite Hu, Ha, Hfi by done. done. }
    destruct (exec_skip _ _ _ _ Hst1 eq_refl Hx1 Hne1) as [Hx2 _]. eapply Hgo; [exact Hx2|done|by eexists].
Qed.

(** The same for "co_await device". *)
Theorem C117_device_hangs denv (s0 s s' : wstate) k lw :
  reach denv s0 -> wubs s0 = None -> noleak s0 -> walive s0 = true -> o_open (wdev s0) = true -> o_readable (wdev s0) = true -> o_data (wdev s0) = [] ->
  wco s0 = CRun (co_await_device k) -> exec denv s0 s -> wtrace s = lw ++ TSusp (FromDev read_or_close) None :: wtrace s0 -> quiet lw -> TDestroy ∈ lw ->
  (∀ sg a, TEmit sg a ∈ lw -> sg ≠ ReadyRead ∧ sg ≠ AboutToClose) -> exec denv s s' ->
  wubs s' = None ∧ ∃ x, wtrace s' = x ++ wtrace s ∧ quiet x.
Proof.
  intros Hr Hu Hl Ha Ho Hrd Hdt Hc Hx Ht Hq Hd Hno Hx'. pose proof (reach_clean _ _ _ Hr Hu Hc) as Hcl.
  assert (Hne : wtrace s ≠ wtrace s0). { rewrite Ht. intros E. apply (f_equal length) in E. rewrite app_length in E. cbn in E. lia. }
  set (p1 := WGet (λ d, if negb (o_open d) || negb (o_readable d) || avail d then dev_read RAll k else WAwait MShot (FromDev read_or_close) None (λ _, dev_read RAll k))).
  set (kk := λ _ : option arg, dev_read RAll k).
  assert (Hst : step s0 = Next (set_co (CRun p1) s0)) by (unfold step; rewrite Hu, Hc; unfold co_await_device; by rewrite Ha).
  destruct (exec_skip _ _ _ _ Hst eq_refl Hx Hne) as [Hx1 Hne1].
  assert (Hst1 : step (set_co (CRun p1) s0) = Next (set_co (CRun (WAwait MShot (FromDev read_or_close) None kk)) s0)).
  { unfold step. cbn. rewrite Hu, Ha, Ho, Hrd. unfold avail. rewrite Hdt. done. }
  destruct (exec_skip _ _ _ _ Hst1 eq_refl Hx1 Hne1) as [Hx2 _].
  set (si := set_co (CRun (WAwait MShot (FromDev read_or_close) None kk)) s0) in *.
  assert (Hcli : clean si) by (destruct Hcl; split; done).
  destruct (await_waits denv MShot (FromDev read_or_close) None kk si s lw) as [Hus Hph]; try done.
  assert (Hem : emissions (FromDev read_or_close) lw = []).
  { destruct (emissions (FromDev read_or_close) lw) as [|p ps] eqn:E; [done|exfalso].
    assert (Hin : p ∈ emissions (FromDev read_or_close) lw) by (rewrite E; left). apply elem_of_list_omap in Hin as (e & He & Hoc). rewrite elem_of_reverse in He.
    destruct e as [|sg a| | | | | | | | |]; try done. destruct (Hno sg a He) as [? ?]. by destruct sg. }
  assert (Hco : wco s = CSusp kk).
  { destruct Hph as [Hsi [a [[Hco _]|[Hco Hba]]]]; [done|exfalso]. destruct Hba as [_ _ _ Hres]. destruct (ares a); [|by destruct Hres as (? & ? & ? & _)]. destruct Hres as [Hres _]. by rewrite Hem in Hres. }
  destruct (phase_dead denv _ _ _ _ _ _ s' _ Hph Hco Hus) as (? & _ & ?); try done.
Qed.

(** write(), exactly: undefined when the wait was ended after the device (WDead) or only the wrapper object (WUndef) was
    destroyed and fewer bytes than accepted were reported. If one of them is gone and the call returns nevertheless, all bytes
    were reported. *)
Theorem C117_write denv (s0 : wstate) c wr total d1 ems :
  reach denv s0 -> wubs s0 = None -> noleak s0 -> walive s0 = true -> whelp s0 = None -> wr (wdev s0) = (total, d1, ems) ->
  let l0 := reverse (map (λ e, TEmit (fst e) (snd e)) ems) ++ [TDev d1] in
  call_spec denv s0 (λ k : Z -> wprog, write c wr k)
    (λ u l, (u = WDead ∧ TDestroy ∈ l ∨ u = WUndef ∧ o_wrapper (dev_after (wdev s0) l) = false) ∧
       ∃ l1 n, l = l1 ++ l0 ∧ flushed c d1 l1 n ∧ (n < total)%Z)
    (λ n l s, ∃ l1, l = l1 ++ l0 ∧ flushed c d1 l1 n ∧ (TDestroy ∈ l ∨ o_wrapper (dev_after (wdev s0) l) = false -> (total ≤ n)%Z)).
Proof.
  intros Hr Hu Hl Ha Hh Hw l0. apply cspec_call; try done. pose proof (cspec_write denv c wr s0 Ha Hh) as H. rewrite Hw in H.
  eapply cspec_mono; [exact H|done|]. intros n l s _ (l1 & -> & Hf & _ & Hor & _). exists l1. split; [done|]. split; [done|].
  intros Hg. destruct Hor as [?|[_ Hng]]; [done|by destruct Hng].
Qed.
End life.
Print Assumptions C117_null.
Print Assumptions C117_read.
Print Assumptions C117_device.
Print Assumptions C117_hangs.
Print Assumptions C117_device_hangs.
Print Assumptions C117_write.

(** ** Examples: the runs of prog64 (readLine()), prog47 (write()) and a co_await of a device *)
Definition progd : qprog (list byte) := co_await_device (λ b, WObs b (WRet tt)).
Example ex117_null : reach anything (winit device false progd) ∧ io_call progd ∧ wubs (wplay 20 [] (winit device false progd)) = Some WDead.
Proof. split; [apply (wplay_reach anything 0 []); allowed|]. split; [constructor|vm_compute; reflexivity]. Qed.
(** data, destruction, resumption: undefined; destruction, timeout: nothing; destruction alone: for ever *)
Definition progt : qprog (list byte) := read IODevice RAll (Some 2) (λ b, WObs b (WRet tt)).
Example ex117_read :
  wubs (wplay 60 [EvDev (with_data [1; 2]) [(ReadyRead, ANone)]; EvDestroy; EvPosted] (winit device true progt)) = Some WDead ∧
  wtrace (wplay 60 [EvDestroy; EvTick; EvTick; EvTimer] (winit device true progt)) =
    [TRet tt; TObs []; TResume None; TExpire; TTick; TTick; TDestroy; TSusp FromHelper (Some 2)].
Proof. split; vm_compute; reflexivity. Qed.
Example ex117_hangs : let s := wplay 60 [EvTick; EvDestroy] (winit device true prog64) in
  reach anything s ∧ wtrace s = [TDestroy; TTick] ++ [TSusp FromHelper None] ∧ must_wait IODevice device ∧
  wco (winit device true prog64) = CRun prog64.
Proof.
  cbv zeta. split; [apply wplay_reach; allowed|]. split; [vm_compute; reflexivity|]. split; [|done].
  split; [done|]. split; [done|]. split; [by intros [?|?]|done].
Qed.
Example ex117_device : let s := wplay 60 [EvTick; EvDestroy] (winit device true progd) in
  reach anything s ∧ ∃ m, wtrace s = [TDestroy; TTick; TSusp (FromDev m) None].
Proof. cbv zeta. split; [apply wplay_reach; allowed|]. eexists. vm_compute. reflexivity. Qed.
(** write(): 5 bytes, all confirmed at once, the device destroyed before the coroutine is resumed: 5; only 3 confirmed: undefined *)
Example ex117_write :
  wtrace (wplay 60 [EvDev device [(BytesWritten, AInt 5)]; EvDestroy; EvPosted] (winit device true (prog47 (accepts 5)))) =
    [TRet tt; TObs 5%Z; TResume (Some (AInt 5)); TDestroy; TReady (AInt 5); TEmit BytesWritten (AInt 5); TDev device; TSusp FromHelper None; TDev (to_write 5 device)] ∧
  wubs (wplay 60 [EvDev (to_write 2 device) [(BytesWritten, AInt 3)]; EvDestroy; EvPosted] (winit device true (prog47 (accepts 5)))) = Some WDead.
Proof. split; vm_compute; reflexivity. Qed.
