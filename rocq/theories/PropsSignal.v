(** * Property theorems C33-C35, C63 (co_await of a signal).

    Vocabulary: QtModel.v (the machine), QtSpec.v (trace vocabulary; traces and segments are newest first), QtWrap.v
    (qCoro(obj, signal) as programs). [reach denv s]: some coroutine was called on some object, and [s] is a state of its
    execution under some history of events; [denv] limits what the object does (most theorems hold for every [denv]).
    [noleak s]: no connection without context object was left behind (only QWebSocketServer's wrapper does, see C66). *)
From stdpp Require Import list.
From Verif Require Import TaskRun.
From Verif Require Import QtModel QtSpec QtInv QtAwait QtReach QtWrap QtTrace.

(** A little object for examples: it has two signals (false, true) with a number as argument, and no state. *)
Definition sig1 : bool -> nat -> option nat := λ s p, if s then None else Some p.
Definition anything {D S P : Type} : D -> list (S * P) -> D -> Prop := λ _ _ _, True.
Ltac allowed := vm_compute; tauto.

(** ** C33 *)

(** co_await qCoro(obj, signal): until the coroutine is resumed nothing else happens to it; if it is resumed, then once,
    with the first emission after the suspension. *)
Theorem C33_resumes_with_first_emission {D S P O A} denv (s0 s : @wstate D S P O A) m k :
  reach denv s0 -> wubs s0 = None -> noleak s0 -> walive s0 = true ->
  wco s0 = CRun (qCoro_signal m k) -> exec denv s0 s ->
  s = s0 ∨
  (∃ l, wtrace s = l ++ TSusp (FromDev m) None :: wtrace s0 ∧ quiet l ∧ wubs s = None) ∨
  (∃ s2 l p, exec denv s0 s2 ∧ exec denv s2 s ∧ wtrace s2 = TResume (Some p) :: l ++ TSusp (FromDev m) None :: wtrace s0 ∧ quiet l ∧
     head (emissions (FromDev m) l) = Some p ∧ wco s2 = CRun (k p)).
Proof.
  intros Hr Hu Hl Ha Hc Hx. pose proof (reach_clean _ _ _ Hr Hu Hc) as Hcl.
  unfold qCoro_signal, qCoro_timeout in Hc.
  destruct (await_exec denv _ _ _ _ s0 s Hc Hu Hcl Hl) as [?|[[? [l Hp]]|(l & v & s2 & Hre & H1 & H2)]]; try done.
  - by left.
  - right. left. destruct Hp as [Hsi _]. exists l. split; [apply Hsi|]. split; [apply Hsi|done].
  - right. right. pose proof (re_res _ _ _ _ _ _ _ _ Hre) as Haw. destruct v as [p|]; [|by destruct Haw as (? & ? & ? & _)].
    exists s2, l, p. split; [done|]. split; [done|]. split; [apply Hre|]. split; [apply Hre|]. split; [apply Haw|].
    rewrite (re_co _ _ _ _ _ _ _ _ Hre). done.
Qed.
Print Assumptions C33_resumes_with_first_emission.

(** In every program: each resumption is due to the first emission, or the timeout, since the coroutine suspended; between
    two resumptions it suspended; and a coroutine that is not suspended is never resumed (undefined behaviour). *)
Theorem C33_every_resumption_explained {D S P O A} denv (s : @wstate D S P O A) l1 v l2 :
  reach denv s -> wubs s = None -> wtrace s = l1 ++ TResume v :: l2 ->
  ∃ c to l l3, l2 = l ++ TSusp c to :: l3 ∧ quiet l ∧ awaited c to l v.
Proof. intros Hr Hu He. destruct (reach_inv _ _ Hr) as [_ Hi]. destruct (Hi Hu) as [Hx _]. by apply (Hx l1). Qed.
Print Assumptions C33_every_resumption_explained.

Theorem C33_no_bad_resume {D S P O A} denv (s : @wstate D S P O A) : reach denv s -> wubs s ≠ Some WBadResume.
Proof. intros Hr He. destruct (reach_inv _ _ Hr) as [Ho _]. by apply (Ho _ He). Qed.
Print Assumptions C33_no_bad_resume.

(** While the coroutine waits, the emissions since then are queued in order, so the event loop's next turn (no helper
    objects being around) resumes it with the first one; the resumption never happens within the emission itself. *)
Theorem C33_delivered_by_event_loop {D S P O A} denv (s0 s : @wstate D S P O A) m to k l p ps :
  reach denv s0 -> wubs s0 = None -> noleak s0 -> walive s0 = true -> whelp s0 = None ->
  wco s0 = CRun (qCoro_timeout m to k) -> exec denv s0 s ->
  wtrace s = l ++ TSusp (FromDev m) to :: wtrace s0 -> quiet l -> step s = Idle -> emissions (FromDev m) l = p :: ps ->
  ∃ s1 s2, env_step EvPosted s = Next s1 ∧ step s1 = Next s2 ∧ wco s2 = CRun (k (Some p)) ∧ wtrace s2 = TResume (Some p) :: wtrace s.
Proof.
  intros Hr Hu Hl Ha Hh Hc Hx Ht Hq Hid Hem. pose proof (reach_clean _ _ _ Hr Hu Hc) as Hcl.
  unfold qCoro_timeout in Hc.
  destruct (await_waits denv _ _ _ _ s0 s l Hc Hu Hcl Hl) as [Hus Hp]; [done|by intros []|done..|].
  destruct Hp as [Hsi [a [[Hco Hwa]|[Hco Hba]]]]; cycle 1.
  { exfalso. unfold step in Hid. by rewrite Hus, Hco in Hid. }
  destruct Hwa. destruct wa_mod as (Hsh & Hres & Hsl). rewrite Hem in Hsl.
  assert (Hhs : whelp s = None).
  { pose proof (si_help _ _ _ _ _ Hsi) as Hy. rewrite Hh in Hy. by destruct (whelp s). }
  cbn [map] in Hsl. unfold env_step. destruct (wposted s) as [|[i q|i sg q] rest] eqn:Ep; [done| |].
  - unfold slots in Hsl. cbn in Hsl. injection Hsl as -> -> Hrest. cbn. rewrite wa_aw, decide_True by done. eexists. unfold resume. cbn. rewrite Hco.
    eexists. split; [done|]. unfold step. cbn. rewrite Hus. split; [done|]. unfold drop_awaiter. cbn. done.
  - destruct (si_relay _ _ _ _ _ Hsi i sg q) as (? & ? & E); [rewrite Ep; left|]. congruence.
Qed.
Print Assumptions C33_delivered_by_event_loop.

(** Two emissions of the awaited signal and one of another, in one go; the coroutine reports what it got. *)
Definition prog33 : @wprog unit bool nat (option nat) unit :=
  qCoro_signal sig1 (λ p, WObs (Some p) (WRet tt)).
Definition run33 := wplay 20 [EvTick; EvDev tt [(true, 7); (false, 3); (false, 4)]; EvPosted; EvPosted] (winit tt true prog33).
Example ex33_reach : reach anything run33.
Proof. apply wplay_reach. allowed. Qed.
Example ex33_trace : wtrace run33 =
  [TRet tt; TObs (Some 3); TResume (Some 3); TEmit false 4; TEmit false 3; TEmit true 7; TDev tt; TTick; TSusp (FromDev sig1) None].
Proof. vm_compute. reflexivity. Qed.
(** The hypotheses of C33_delivered_by_event_loop: *)
Definition prog33' : @wprog unit bool nat (option nat) unit := qCoro_timeout sig1 None (λ p, WObs p (WRet tt)).
Example ex33_hyps : let s0 := winit tt true prog33' in let s := wplay 20 [EvTick; EvDev tt [(true, 7); (false, 3); (false, 4)]] s0 in
  reach anything s0 ∧ exec anything s0 s ∧ wco s0 = CRun (qCoro_timeout sig1 None (λ p, WObs p (WRet tt))) ∧
  ∃ l, wtrace s = l ++ [TSusp (FromDev sig1) None] ∧ quiet l ∧ step s = Idle ∧ emissions (FromDev sig1) l = [3; 4].
Proof.
  cbv zeta. split; [apply (wplay_reach anything 0 []); allowed|]. split; [apply wplay_exec; [allowed|constructor]|]. split; [done|].
  exists [TEmit false 4; TEmit false 3; TEmit true 7; TDev tt; TTick]. split; [vm_compute; reflexivity|]. split; [|split; vm_compute; reflexivity].
  intros e. rewrite !elem_of_cons. intros [->|[->|[->|[->|[->|?%elem_of_nil]]]]]; done.
Qed.

(** ** C34 *)

(** co_await qCoro(obj, signal, timeout): resumed at most once; with the first emission since, or with nothing, but then at
    the expiry of the timer, at least the timeout after the suspension. *)
Theorem C34_signal_or_timeout {D S P O A} denv (s0 s : @wstate D S P O A) m to k :
  reach denv s0 -> wubs s0 = None -> noleak s0 -> walive s0 = true ->
  wco s0 = CRun (qCoro_timeout m to k) -> exec denv s0 s ->
  s = s0 ∨
  (∃ l, wtrace s = l ++ TSusp (FromDev m) to :: wtrace s0 ∧ quiet l ∧ wubs s = None) ∨
  (∃ s2 l v, exec denv s0 s2 ∧ exec denv s2 s ∧ wtrace s2 = TResume v :: l ++ TSusp (FromDev m) to :: wtrace s0 ∧ quiet l ∧ wco s2 = CRun (k v) ∧
     match v with
     | Some p => head (emissions (FromDev m) l) = Some p ∧ (TExpire ∈ l -> TDestroy ∈ l)
     | None => ∃ n l', to = Some n ∧ l = TExpire :: l' ∧ n ≤ elapsed l' ∧ TExpire ∉ l' ∧ TDestroy ∉ l'
     end).
Proof.
  intros Hr Hu Hl Ha Hc Hx. pose proof (reach_clean _ _ _ Hr Hu Hc) as Hcl.
  unfold qCoro_timeout in Hc.
  destruct (await_exec denv _ _ _ _ s0 s Hc Hu Hcl Hl) as [?|[[? [l Hp]]|(l & v & s2 & Hre & H1 & H2)]]; [done|by intros []|done|by left|right; left|right; right].
  - destruct Hp as [Hsi _]. exists l. split; [apply Hsi|]. split; [apply Hsi|done].
  - exists s2, l, v. split; [done|]. split; [done|]. split; [apply Hre|]. split; [apply Hre|]. split; [|apply (re_res _ _ _ _ _ _ _ _ Hre)].
    rewrite (re_co _ _ _ _ _ _ _ _ Hre). done.
Qed.
Print Assumptions C34_signal_or_timeout.

(** When the time is up and the object still exists, the timer resumes the coroutine with nothing, even when an emission
    is already on its way through the event queue; it does so once: after that no timer and no slot is left. *)
Theorem C34_expiry_resumes {D S P O A} denv (s0 s : @wstate D S P O A) m n k l :
  reach denv s0 -> wubs s0 = None -> noleak s0 -> walive s0 = true ->
  wco s0 = CRun (qCoro_timeout m (Some n) k) -> exec denv s0 s ->
  wtrace s = l ++ TSusp (FromDev m) (Some n) :: wtrace s0 -> quiet l -> step s = Idle -> TDestroy ∉ l -> n ≤ elapsed l ->
  ∃ s1 s2, env_step EvTimer s = Next s1 ∧ step s1 = Next s2 ∧ wco s2 = CRun (k None) ∧ wtrace s2 = TResume None :: TExpire :: wtrace s ∧
    env_step EvTimer s2 = Idle ∧ ∀ i p, PSlot i p ∉ wposted s2.
Proof.
  intros Hr Hu Hl Ha Hc Hx Ht Hq Hid Hnd Hn. pose proof (reach_clean _ _ _ Hr Hu Hc) as Hcl.
  unfold qCoro_timeout in Hc.
  destruct (await_waits denv _ _ _ _ s0 s l Hc Hu Hcl Hl) as [Hus Hp]; [done|by intros []|done..|].
  pose proof Hp as [Hsi [a [[Hco Hwa]|[Hco Hba]]]]; cycle 1.
  { exfalso. unfold step in Hid. by rewrite Hus, Hco in Hid. }
  pose proof Hwa as [].
  assert (Hctx : actx a = true) by (destruct (actx a) eqn:E; [done|]; by destruct (wa_ctx eq_refl)).
  destruct (atimer a) as [t|] eqn:Et; cycle 1.
  { exfalso. destruct (wa_expire (wa_timer eq_refl ltac:(eauto))). congruence. }
  destruct wa_timer as (_ & _ & n' & [= ?] & Htn). subst n'.
  assert (Hle : t ≤ wnow s) by (pose proof (si_now _ _ _ _ _ Hsi); lia).
  destruct (env_step EvTimer s) as [s1|] eqn:E1; cycle 1.
  { exfalso. unfold env_step in E1. rewrite wa_aw, Et, decide_True in E1 by done. done. }
  exists s1. destruct (phase_env _ _ _ _ _ _ _ _ _ Hp Hus Hid E1) as (Hu1 & l' & Hp1).
  unfold env_step in E1. rewrite wa_aw, Et, Hctx, decide_True in E1 by done. unfold resume in E1. cbn in E1. rewrite Hco in E1. injection E1 as E1.
  destruct (step s1) as [s2|] eqn:E2; cycle 1.
  { exfalso. subst s1. unfold step in E2. cbn in E2. rewrite Hus in E2. done. }
  exists s2. split; [done|]. split; [done|].
  destruct (phase_step _ _ _ _ _ _ _ _ Hp1 Hu1 E2) as [(Hx1 & _)|[(Hx1 & l2 & Hp2)|(v & Hre)]].
  - exfalso. subst s1. unfold step in E2. cbn in E2. rewrite Hus in E2. injection E2 as <-. cbn in Hx1. unfold drop_awaiter in Hx1. cbn in Hx1. congruence.
  - exfalso. subst s1. unfold step in E2. cbn in E2. rewrite Hus in E2. injection E2 as <-. destruct (phase_co _ _ _ _ _ _ _ Hp2) as [H|H]; cbn in H; done.
  - destruct (re_clean _ _ _ _ _ _ _ _ Hre). destruct wa_mod as (_ & Hres & _).
    assert (v = None ∧ wtrace s2 = TResume None :: TExpire :: wtrace s) as [-> Htr].
    { pose proof (re_co _ _ _ _ _ _ _ _ Hre) as Hk. pose proof (re_trace _ _ _ _ _ _ _ _ Hre) as Htr. subst s1. unfold step in E2. cbn in E2. rewrite Hus, Hres in E2. injection E2 as <-. unfold drop_awaiter in *. cbn in *.
      split; [|done]. by injection Htr. }
    split; [apply (re_co _ _ _ _ _ _ _ _ Hre)|]. split; [done|]. split; [unfold env_step; by rewrite cl_aw|].
    intros i p Hin. assert (Hin' : (i, p) ∈ slots (wposted s2)) by (apply elem_of_list_omap; by exists (PSlot i p)).
    rewrite cl_slots in Hin'. by apply elem_of_nil in Hin'.
Qed.
Print Assumptions C34_expiry_resumes.

Definition prog34 : @wprog unit bool nat (option nat) unit := qCoro_timeout sig1 (Some 2) (λ p, WObs p (WRet tt)).
(** The expiry wins the race against a queued emission; the delivery afterwards does nothing. *)
Definition run34 := wplay 20 [EvTick; EvTick; EvDev tt [(false, 3)]; EvTimer; EvTick] (winit tt true prog34).
Example ex34_trace : reach anything run34 ∧ wtrace run34 =
  [TTick; TRet tt; TObs None; TResume None; TExpire; TEmit false 3; TDev tt; TTick; TTick; TSusp (FromDev sig1) (Some 2)].
Proof. split; [apply wplay_reach; allowed|]. vm_compute. reflexivity. Qed.
(** The delivery wins. *)
Definition run34' := wplay 20 [EvTick; EvTick; EvDev tt [(false, 3)]; EvPosted; EvTimer] (winit tt true prog34).
Example ex34_trace' : reach anything run34' ∧ wtrace run34' =
  [TRet tt; TObs (Some 3); TResume (Some 3); TEmit false 3; TDev tt; TTick; TTick; TSusp (FromDev sig1) (Some 2)].
Proof. split; [apply wplay_reach; allowed|]. vm_compute. reflexivity. Qed.

(** ** C35 *)

(** Proved part: as long as the object exists the timer does end the co_await (C34_expiry_resumes); it may also end by an
    emission (C33_delivered_by_event_loop). *)
Theorem C35_ends_partial {D S P O A} denv (s0 s : @wstate D S P O A) m n k l :
  reach denv s0 -> wubs s0 = None -> noleak s0 -> walive s0 = true ->
  wco s0 = CRun (qCoro_timeout m (Some n) k) -> exec denv s0 s ->
  wtrace s = l ++ TSusp (FromDev m) (Some n) :: wtrace s0 -> quiet l -> step s = Idle -> TDestroy ∉ l -> n ≤ elapsed l ->
  ∃ s2, exec denv s s2 ∧ wco s2 = CRun (k None).
Proof.
  intros Hr Hu Hl Ha Hc Hx Ht Hq Hid Hnd Hn.
  destruct (C34_expiry_resumes denv s0 s m n k l) as (s1 & s2 & H1 & H2 & H3 & _); try done.
  exists s2. split; [|done]. eapply exec_step; [|exact H2]. apply (exec_env _ _ s EvTimer s1); try done; [constructor|].
  unfold qCoro_timeout in Hc. pose proof (reach_clean _ _ _ Hr Hu Hc) as Hcl.
  destruct (await_waits denv _ _ _ _ s0 s l Hc Hu Hcl Hl) as [Hus Hp]; try done.
Qed.
Print Assumptions C35_ends_partial.

(** If the object is destroyed before it emitted the signal, the coroutine never continues, whatever happens and however
    much time passes. *)
Theorem C35_destroyed_hangs {D S P O A} denv (s0 s : @wstate D S P O A) m to k l :
  reach denv s0 -> wubs s0 = None -> noleak s0 -> walive s0 = true ->
  wco s0 = CRun (qCoro_timeout m to k) -> exec denv s0 s ->
  wtrace s = l ++ TSusp (FromDev m) to :: wtrace s0 -> quiet l -> TDestroy ∈ l -> emissions (FromDev m) l = [] -> step s = Idle ->
  ∀ s', exec denv s s' -> wubs s' = None ∧ ∃ l', wtrace s' = l' ++ wtrace s ∧ quiet l'.
Proof.
  intros Hr Hu Hl Ha Hc Hx Ht Hq Hd He Hid s' Hx'. pose proof (reach_clean _ _ _ Hr Hu Hc) as Hcl.
  unfold qCoro_timeout in Hc.
  destruct (await_waits denv _ _ _ _ s0 s l Hc Hu Hcl Hl) as [Hus Hp]; [done|by intros []|done..|].
  assert (wco s = CSusp k).
  { destruct Hp as [_ [a [[? _]|[Hco _]]]]; [done|]. unfold step in Hid. by rewrite Hus, Hco in Hid. }
  destruct (phase_dead denv _ _ _ _ _ _ s' _ Hp) as (? & _ & ?); done.
Qed.
Print Assumptions C35_destroyed_hangs.

(** So the claim is false: *)
Theorem C35_refuted : ∃ s : @wstate unit bool nat (option nat) unit,
  reach anything s ∧ walive s = false ∧ elapsed (wtrace s) = 5 ∧ TSusp (FromDev sig1) (Some 2) ∈ wtrace s ∧
  ∀ s', exec anything s s' -> wubs s' = None ∧ ∀ v, TResume v ∉ wtrace s'.
Proof.
  set (s0 := winit tt true prog34). set (s := wplay 20 [EvDestroy; EvTick; EvTick; EvTimer; EvTick; EvTick; EvTick] s0).
  assert (Hx : exec anything s0 s) by (apply wplay_exec; [allowed|constructor]).
  assert (Hr0 : reach anything s0) by (apply (wplay_reach anything 0 []); allowed).
  exists s. split; [by eapply reach_exec|]. do 2 (split; [vm_compute; reflexivity|]). split; [vm_compute; in_|].
  intros s' Hx'.
  destruct (C35_destroyed_hangs anything s0 s sig1 (Some 2) (λ p, WObs p (WRet tt)) [TTick; TTick; TTick; TExpire; TTick; TTick; TDestroy]) with s'
    as (Hu & l' & Ht & Hq); try done.
  - intros e. rewrite !elem_of_cons. intros [->|[->|[->|[->|[->|[->|[->|?%elem_of_nil]]]]]]]; done.
  - in_.
  - split; [done|]. intros v. rewrite Ht. intros [Hin|Hin]%elem_of_app; [by apply (quiet_resume _ v Hq)|].
    assert (Hw : wtrace s = [TTick; TTick; TTick; TExpire; TTick; TTick; TDestroy; TSusp (FromDev sig1) (Some 2)]) by (vm_compute; reflexivity).
    rewrite Hw in Hin. clear -Hin. rewrite !elem_of_cons in Hin. destruct Hin as [?|[?|[?|[?|[?|[?|[?|[?|?%elem_of_nil]]]]]]]]; done.
Qed.
Print Assumptions C35_refuted.

(** ** C63 *)

(** With a timeout argument, awaiting a signal of a null (or destroyed) object gives nothing at once. *)
Theorem C63_null_with_timeout {D S P O A} (s0 : @wstate D S P O A) m to k :
  wubs s0 = None -> walive s0 = false -> wco s0 = CRun (qCoro_timeout m to k) ->
  ∃ s1, step s0 = Next s1 ∧ wco s1 = CRun (k None) ∧ wubs s1 = None ∧ wtrace s1 = TSkip None :: wtrace s0.
Proof.
  intros Hu Ha Hc. unfold qCoro_timeout in Hc. unfold step. rewrite Hu, Hc. unfold await. rewrite Ha.
  eexists. split; [done|]. done.
Qed.
Print Assumptions C63_null_with_timeout.

(** Without, an empty optional is dereferenced, always. *)
Theorem C63_null_refuted {D S P O A} (s0 : @wstate D S P O A) m k :
  wubs s0 = None -> walive s0 = false -> wco s0 = CRun (qCoro_signal m k) ->
  ∃ s1 s2, step s0 = Next s1 ∧ step s1 = Next s2 ∧ wubs s2 = Some WUndef.
Proof.
  intros Hu Ha Hc. unfold qCoro_signal in Hc. unfold qCoro_timeout in Hc. unfold step. rewrite Hu, Hc. unfold await. rewrite Ha.
  eexists. eexists. split; [done|]. cbn. rewrite Hu. done.
Qed.
Print Assumptions C63_null_refuted.

Example ex63 : let s0 := winit tt false prog33 in reach anything s0 ∧ wubs (wplay 20 [] s0) = Some WUndef.
Proof. split; [apply (wplay_reach anything 0 []); allowed|]. vm_compute. reflexivity. Qed.
