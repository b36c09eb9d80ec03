(** * When the functions of QCoroIODevice end; co_await of a device. *)
From stdpp Require Import list.
From Coq Require Import ZArith.
From Verif Require Import QtModel QtSpec QtInv QtAwait QtReach QtWrap QtTrace QtBehave QtCall QtEnds QtCall2 QtEnds2 QtObj QtIO QtIOSpec QtIOFacts.

Section ends.
Context {O A : Type}.
Notation wprog := (@QtModel.wprog qobj sig arg O).
Notation wstate := (@QtModel.wstate qobj sig arg O A).
Notation tev := (@QtModel.tev qobj sig arg O A).
#[local] Arguments emissions : simpl never.
#[local] Arguments relays : simpl never.

(** Something that ends the wait happened. *)
Definition woken (wakes : sig -> arg -> Prop) (to : option nat) (l : list tev) : Prop :=
  (∃ sg a, TEmit sg a ∈ l ∧ wakes sg a) ∨ ∃ n, to = Some n ∧ n ≤ elapsed l.

Lemma relays_some {D S P} (h : @helper D S P) (d : D) (l : list (@QtModel.tev D S P O A)) sg a : TEmit sg a ∈ l -> (∀ d', ∃ x, relay h sg a d' = Some x) -> relays h d l ≠ [].
Proof.
  intros (l1 & l2 & ->)%elem_of_list_split Hr. rewrite relays_app, relays_cons. destruct (Hr (dev_after d l2)) as [[[b q] o] ->]. destruct (relays h d l2); done.
Qed.

Lemma cends_ready_impl denv c to (s0 : wstate) : walive s0 = true -> whelp s0 = None ->
  cends denv s0 (λ k : option arg -> wprog A, ready_impl c to k) (woken (wakes_read c) to).
Proof.
  intros Ha Hh.
  assert (Hq : cends denv s0 (λ k : option arg -> wprog A, qCoro_helper (ready_helper c) to k) (woken (wakes_read c) to)).
  { eapply cends_mono; [|by apply cends_helper]. intros l [(sg & a & Hin & Hw)|?]; [left|by right]. eapply relays_some; [done|]. intros d'. by apply ready_relay. }
  destruct c; cbn -[qCoro_helper].
  - done.
  - apply (cends_get denv s0 (λ d k, if sconnected d then qCoro_helper (ready_helper AbstractSocket) to k else k (Some (ABool false)))); [done|].
    destruct (sconnected _); [done|]. apply (cends_ret denv s0 (Some (ABool false))).
  - apply (cends_get denv s0 (λ d k, if sconnected d then qCoro_helper (ready_helper LocalSocket) to k else k (Some (ABool false)))); [done|].
    destruct (sconnected _); [done|]. apply (cends_ret denv s0 (Some (ABool false))).
  - apply (cends_get denv s0 (λ d k, if o_finished d then k (Some (ABool true)) else qCoro_helper (ready_helper NetworkReply) to k)); [done|].
    destruct (o_finished _); [|done]. apply (cends_ret denv s0 (Some (ABool true))).
Qed.
Lemma cends_waitForReadyRead denv c to (s0 : wstate) : walive s0 = true -> whelp s0 = None ->
  cends denv s0 (λ k : bool -> wprog A, waitForReadyRead c to k) (woken (wakes_read c) to).
Proof.
  intros Ha Hh. unfold waitForReadyRead.
  apply (cends_get denv s0 (λ d k, if negb (o_readable d) then k false else if avail d then k true else ready_impl c to (λ r, k (has_value r)))); [done|].
  destruct (negb _); [apply (cends_ret denv s0 false)|]. destruct (avail _); [apply (cends_ret denv s0 true)|].
  apply (cends_then denv s0 (λ k, ready_impl c to k) (λ r k, k (has_value r))); [by apply cends_ready_impl|].
  intros k b s2 Hc Hu. apply imm_done. left. eauto.
Qed.
Lemma imm_dev_read r (k : list byte -> wprog A) (s2 : wstate) : wco s2 = CRun (dev_read r k) -> wubs s2 = None -> imm k s2.
Proof.
  intros Hc Hu. eapply imm_step; [unfold step; rewrite Hu, Hc; reflexivity|]. apply imm_done. cbn. destruct (walive s2); [left; cbn; eauto|right; cbn; eauto].
Qed.
Lemma cends_read denv c r to (s0 : wstate) : walive s0 = true -> whelp s0 = None ->
  cends denv s0 (λ k : list byte -> wprog A, read c r to k) (woken (wakes_read c) to).
Proof.
  intros Ha Hh. apply (cends_then denv s0 (λ k, waitForReadyRead c to k) (λ b k, if b then dev_read r k else k [])); [by apply cends_waitForReadyRead|].
  intros k [|] s2 Hc Hu; [by eapply imm_dev_read|]. apply imm_done. left. eauto.
Qed.

Lemma cends_written_impl denv c to (s0 : wstate) : walive s0 = true -> whelp s0 = None ->
  cends denv s0 (λ k : option arg -> wprog A, written_impl c to k) (woken (λ sg a, ∃ v, wakes_write c sg a v) to).
Proof.
  intros Ha Hh.
  assert (Hq : cends denv s0 (λ k : option arg -> wprog A, qCoro_helper (written_helper c) to k) (woken (λ sg a, ∃ v, wakes_write c sg a v) to)).
  { eapply cends_mono; [|by apply cends_helper]. intros l [(sg & a & Hin & v & Hw)|?]; [left|by right]. eapply relays_some; [done|]. intros d'.
    destruct (proj2 (written_relay c sg a d' v) Hw) as (b & o & Hx). eauto. }
  destruct c; cbn -[qCoro_helper].
  - done.
  - apply (cends_get denv s0 (λ d k, if sconnected d then qCoro_helper (written_helper AbstractSocket) to k else k None)); [done|].
    destruct (sconnected _); [done|]. apply (cends_ret denv s0 None).
  - apply (cends_get denv s0 (λ d k, if sconnected d then qCoro_helper (written_helper LocalSocket) to k else k None)); [done|].
    destruct (sconnected _); [done|]. apply (cends_ret denv s0 None).
  - apply (cends_get denv s0 (λ d k, if o_finished d then k (Some (AInt 0)) else qCoro_helper (written_helper NetworkReply) to k)); [done|].
    destruct (o_finished _); [|done]. apply (cends_ret denv s0 (Some (AInt 0))).
Qed.
Lemma cends_waitForBytesWritten denv c to (s0 : wstate) : walive s0 = true -> whelp s0 = None ->
  cends denv s0 (λ k : option arg -> wprog A, waitForBytesWritten c to k) (woken (λ sg a, ∃ v, wakes_write c sg a v) to).
Proof.
  intros Ha Hh. unfold waitForBytesWritten.
  apply (cends_get denv s0 (λ d k, if negb (o_writable d) then k None else if (o_towrite d =? 0)%Z then k (Some (AInt 0)) else written_impl c to k)); [done|].
  destruct (negb _); [apply (cends_ret denv s0 None)|]. destruct (_ =? _)%Z; [apply (cends_ret denv s0 (Some (AInt 0)))|]. by apply cends_written_impl.
Qed.

(** ** co_await device *)
Lemma cspec_co_await_device denv (s0 : wstate) : walive s0 = true -> whelp s0 = None ->
  cspec denv s0 (λ k : list byte -> wprog A, co_await_device k) (λ u l, u = WDead ∧ TDestroy ∈ l)
    (λ b l s, read_device (wdev s0) b l (wdev s) ∧ kept s0 s l).
Proof.
  intros Ha Hh. unfold co_await_device.
  apply (cspec_alive denv s0 (λ b k, if b then WGet (λ d, if negb (o_open d) || negb (o_readable d) || avail d then dev_read RAll k
     else WAwait MShot (FromDev read_or_close) None (λ _, dev_read RAll k)) else dev_read RAll k)). rewrite Ha.
  apply (cspec_get denv s0 (λ d k, if negb (o_open d) || negb (o_readable d) || avail d then dev_read RAll k else WAwait MShot (FromDev read_or_close) None (λ _, dev_read RAll k))); [done|].
  destruct (negb (o_open (wdev s0)) || negb (o_readable (wdev s0)) || avail (wdev s0)) eqn:Er.
  - apply cspec_dev_read; [|congruence]. intros _ b y [Hr Hy] co d'. subst y. rewrite app_nil_r in Hr. split; [|split; try done; cbn; by intros [?|?%elem_of_nil]%elem_of_cons].
    subst b. apply rd_now. apply orb_true_iff in Er as [[E|E]%orb_true_iff|E]; [left; by apply negb_true_iff|right; left; by apply negb_true_iff|right; right].
    unfold avail in E. intros E'. by rewrite E' in E.
  - apply orb_false_iff in Er as [[Eo%negb_false_iff Er%negb_false_iff]%orb_false_iff Ed].
    apply (cspec_bind denv s0 (λ k, WAwait MShot (FromDev read_or_close) None k) (λ _ k, dev_read RAll k) _
      (λ v l s, (∃ sg a lw, l = TResume v :: lw ++ [TSusp (FromDev read_or_close) None] ∧ quiet lw ∧ TEmit sg a ∈ lw ∧ (sg = ReadyRead ∨ sg = AboutToClose)) ∧ kept s0 s l)).
    + apply cspec_await; [done|by intros []|]. intros v l s2 Hw _. split; [|by apply waited_kept]. destruct Hw. destruct v as [p|]; [|by destruct wd_res as (? & ? & ? & _)].
      destruct wd_res as [Hhd _]. assert (Hin : p ∈ emissions (FromDev read_or_close) l) by (destruct (emissions _ l); [done|]; cbn in Hhd; injection Hhd as ->; left).
      apply elem_of_list_omap in Hin as (e & He & Ho). rewrite elem_of_reverse in He. destruct e as [|sg a| | | | | | | | |]; try done.
      exists sg, a, l. split; [done|]. split; [done|]. split; [done|]. destruct sg; try done; auto.
    + intros v l s2 Hg [(sg & a & lw & -> & Hq & Hin & Hsg) Hk] _. apply cspec_dev_read.
      * intros Ha2 b y [Hr Hy] co d'. subst y. rewrite app_nil_r in Hr. split.
        -- subst b. unfold d'. rewrite (ke_dev _ _ _ Hk). cbn [app]. eapply rd_wait; try done. unfold avail in Ed. by destruct (o_data (wdev s0)).
        -- destruct Hk. split; try done; cbn [app] in *.
           ++ intros Hn. apply ke_alive. intros ?. apply Hn. by right.
           ++ intros [?|?]%elem_of_cons; [done|auto].
      * intros Hd. split; [done|]. cbn [app]. by eapply dead_destroyed; [apply Hk| |].
Qed.
Lemma cends_co_await_device denv (s0 : wstate) : walive s0 = true ->
  cends denv s0 (λ k : list byte -> wprog A, co_await_device k) (λ l, ∃ a, TEmit ReadyRead a ∈ l ∨ TEmit AboutToClose a ∈ l).
Proof.
  intros Ha. unfold co_await_device.
  apply (cends_alive denv s0 (λ b k, if b then WGet (λ d, if negb (o_open d) || negb (o_readable d) || avail d then dev_read RAll k
     else WAwait MShot (FromDev read_or_close) None (λ _, dev_read RAll k)) else dev_read RAll k)). rewrite Ha.
  apply (cends_get denv s0 (λ d k, if negb (o_open d) || negb (o_readable d) || avail d then dev_read RAll k else WAwait MShot (FromDev read_or_close) None (λ _, dev_read RAll k))); [done|].
  destruct (_ || _).
  - apply cends_imm. intros k (_ & Hu & _). by eapply imm_dev_read.
  - apply (cends_then denv s0 (λ k, WAwait MShot (FromDev read_or_close) None k) (λ _ k, dev_read RAll k)).
    + eapply cends_mono; [|by apply cends_shot]. intros l [a Hin] He.
      assert (∃ e, e ∈ l ∧ occurs (FromDev read_or_close) e = Some ANone) as (e & Hel & Ho) by (destruct Hin; eexists; (split; [done|done])).
      assert (ANone ∈ emissions (FromDev read_or_close) l) by (apply elem_of_list_omap; exists e; by rewrite elem_of_reverse). rewrite He in *. by apply elem_of_nil in H.
    + intros k b s2. apply imm_dev_read.
Qed.
End ends.
