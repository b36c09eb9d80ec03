(** * Properties of moveToThread(): C55 (second half), C56, C82, C83. The model is ThreadModel.v, the vocabulary ThreadSpec.v. *)
From stdpp Require Import list option.
From Verif Require Import ThreadModel ThreadSpec.

Lemma msteps_cons e tr : msteps_in (e :: tr) = match e with EStep => 1 | _ => 0 end + msteps_in tr.
Proof. unfold msteps_in. by destruct e. Qed.
Lemma during_cons e w : during (e :: w) <-> match e with EMove _ _ | EResumed _ | EDestroyed | EUseAfterFree => False | _ => True end ∧ during w.
Proof.
  split.
  - intros H. split; [apply (H e); left|]. intros e' He. apply H. by right.
  - intros [H1 H2] e' [->|He]%elem_of_cons; [done|]. by apply H2.
Qed.
#[local] Arguments msteps_in : simpl never.

Section props.
Context (thr : nat -> tstate) (a0 : nat).

(** A step adds one event. *)
Lemma step_ev s s' x : mperform x s = Some s' -> ∃ e, m_tr s' = e :: m_tr s.
Proof.
  intros H. destruct s as [th co tr]. destruct x; cbn in H;
    repeat match goal with H : context [match ?x with _ => _ end] |- _ => destruct x; cbn in H; try done end;
    injection H as <-; cbn; eauto.
Qed.
Lemma thr_spec s : mreach thr a0 s -> ∀ t, m_thr s t = state_of thr t (m_tr s).
Proof.
  induction 1 as [|s s' x Hr IH Hp]; intros t; [done|].
  assert (∀ y t', (upd t' y (m_thr s)) t = if decide (t' = t) then y else state_of thr t (m_tr s)) as Hupd.
  { intros y t'. unfold upd. destruct (decide (t = t')), (decide (t' = t)); try congruence; apply IH. }
  destruct x; cbn in Hp.
  - destruct (m_co s); try done. injection Hp as <-. apply IH.
  - destruct (m_co s) as [|a t' p|a t' p|]; try done.
    + destruct (mstep s a t' p); [|done]. injection Hp as <-. apply IH.
    + destruct p; try done. destruct (live _); [|done]. injection Hp as <-. apply IH.
  - destruct (m_co s) as [|a t' p| |]; try done. destruct p; try done. destruct (live _); [|done]. injection Hp as <-. apply IH.
  - destruct (m_co s) as [|a t' p| |]; try done. destruct p; try done; injection Hp as <-; apply IH.
  - destruct (m_thr s t0); try done; injection Hp as <-; cbn; apply Hupd.
  - destruct (m_thr s t0); try done; injection Hp as <-; cbn; apply Hupd.
  - destruct (m_thr s t0); try done. destruct (match m_co s with CRuns _ => _ | _ => _ end); [done|]. injection Hp as <-. cbn. apply Hupd.
Qed.

(** What the coroutine's position says about the trace. *)
Definition agrees (s : mst) : Prop :=
  match m_co s with
  | CRuns a => moving (m_tr s) = None ∧ place a0 (m_tr s) = a ∧ state_of thr a (m_tr s) = TRunning
  | CMoves a t p => moving (m_tr s) = Some t ∧ place a0 (m_tr s) = a
  | CGone _ _ _ | CCrash => moving (m_tr s) = None
  end.
Lemma agrees_spec s : mreach thr a0 s -> agrees s.
Proof.
  induction 1 as [Ha|s s' x Hr IH Hp]; [done|]. pose proof (thr_spec _ Hr) as Ht. unfold agrees in *. destruct x; cbn in Hp.
  - destruct (m_co s); try done. injection Hp as <-. cbn. naive_solver.
  - destruct (m_co s) as [|a t' p|a t' p|]; try done.
    + destruct (mstep s a t' p); [|done]. injection Hp as <-. done.
    + destruct p; try done. destruct (live _); [|done]. injection Hp as <-. done.
  - destruct (m_co s) as [|a t' p| |]; try done. destruct p; try done. destruct (live _) eqn:E; [|done]. injection Hp as <-. cbn.
    split_and!; try done. rewrite <- Ht. by destruct (m_thr s t').
  - destruct (m_co s) as [|a t' p| |]; try done. destruct p; try done; injection Hp as <-; done.
  - destruct (m_thr s t) eqn:Et; try done; injection Hp as <-; cbn; destruct (m_co s); try done.
    all: destruct IH as (? & ? & IH); split_and!; try done; rewrite decide_False; try done; intros ->; rewrite <- Ht in IH; congruence.
  - destruct (m_thr s t) eqn:Et; try done; injection Hp as <-; cbn; destruct (m_co s) as [|a t' []|a t' []|]; try done; cbn.
    + destruct IH as (? & ? & IH); split_and!; try done. by destruct (decide _).
    + by destruct (decide _).
    + by destruct (decide _).
  - destruct (m_thr s t) eqn:Et; try done. destruct (m_co s) as [a|a t' []|a t' []|]; try done; cbn in Hp; try (by injection Hp as <-);
      (destruct (bool_decide _) eqn:E; [done|]; apply bool_decide_eq_false in E; injection Hp as <-; cbn; try done).
    destruct IH as (? & ? & IH); split_and!; try done. by rewrite decide_False.
Qed.

(** ** C55 *)

(** When co_await moveToThread(t) returns, the coroutine continues on thread t, which is running; each of them returns at most once, and while
    it has not, the coroutine does nothing else. *)
Theorem C55_moved s t2 e t1 : mreach thr a0 s -> m_tr s = t2 ++ e :: t1 ->
  match e with
  | EResumed t => moving t1 = Some t ∧ state_of thr t t1 = TRunning
  | EMove a t => moving t1 = None ∧ place a0 t1 = a ∧ state_of thr a t1 = TRunning
  | _ => True
  end.
Proof.
  intros Hr. revert t2. induction Hr as [|s s' x Hr IH Hp]; intros t2 Ht; [by destruct t2|].
  destruct (step_ev _ _ _ Hp) as [e' He']. rewrite He' in Ht. destruct t2 as [|y t2]; [|injection Ht as -> Ht; by eapply IH].
  injection Ht as -> <-. pose proof (thr_spec _ Hr) as Hth. pose proof (agrees_spec _ Hr) as Hag. unfold agrees in Hag. clear IH.
  destruct x; cbn in Hp.
  - destruct (m_co s); try done. injection Hp as <-. cbn in He'. by injection He' as <-.
  - destruct (m_co s) as [|a t' p|a t' p|]; try done.
    + destruct (mstep s a t' p); [|done]. injection Hp as <-. by injection He' as <-.
    + destruct p; try done. destruct (live _); [|done]. injection Hp as <-. by injection He' as <-.
  - destruct (m_co s) as [|a t' p| |]; try done. destruct p; try done. destruct (live _) eqn:E; [|done]. injection Hp as <-. injection He' as <-.
    split; [apply Hag|]. rewrite <- Hth. by destruct (m_thr s t').
  - destruct (m_co s) as [|a t' p| |]; try done. destruct p; try done; injection Hp as <-; by injection He' as <-.
  - destruct (m_thr s t); try done; injection Hp as <-; by injection He' as <-.
  - destruct (m_thr s t); try done; injection Hp as <-; by injection He' as <-.
  - destruct (m_thr s t); try done. destruct (match m_co s with CRuns _ => _ | _ => _ end); [done|]. injection Hp as <-. by injection He' as <-.
Qed.

(** What happens in one step while the coroutine moves. *)
Lemma move_step s s' x w a t u : mreach thr a0 s -> mperform x s = Some s' -> m_tr s' = w ++ EMove a t :: u -> during w ->
  (w = [] ∧ m_tr s = u ∧ m_co s' = CMoves a t PCheckRunning ∧ m_thr s' = m_thr s) ∨
  ∃ e w', w = e :: w' ∧ m_tr s = w' ++ EMove a t :: u ∧ during w'.
Proof.
  intros Hr Hp Ht Hd. destruct (step_ev _ _ _ Hp) as [e He]. rewrite He in Ht. destruct w as [|e' w].
  - left. injection Ht as -> Ht. split; [done|]. split; [done|]. destruct x; cbn in Hp.
    + destruct (m_co s); try done. injection Hp as <-. by injection He as -> ->.
    + destruct (m_co s) as [|a' t' p|a' t' p|]; try done.
      * destruct (mstep s a' t' p); [|done]. injection Hp as <-. by injection He.
      * destruct p; try done. destruct (live _); [|done]. injection Hp as <-. by injection He.
    + destruct (m_co s) as [|a' t' p| |]; try done. destruct p; try done. destruct (live _) eqn:E; [|done]. injection Hp as <-. by injection He.
    + destruct (m_co s) as [|a' t' p| |]; try done. destruct p; try done; injection Hp as <-; by injection He.
    + destruct (m_thr s t0); try done; injection Hp as <-; by injection He.
    + destruct (m_thr s t0); try done; injection Hp as <-; by injection He.
    + destruct (m_thr s t0); try done. destruct (match m_co s with CRuns _ => _ | _ => _ end); [done|]. injection Hp as <-. by injection He.
  - right. injection Ht as -> Ht. exists e', w. split; [done|]. split; [done|]. by apply during_cons in Hd as [_ ?].
Qed.

(** Moving to a thread that has been started. *)
Lemma running_move s w a t u : mreach thr a0 s -> m_tr s = w ++ EMove a t :: u -> during w ->
  (state_of thr t u = TRunning ∨ state_of thr t u = TStarting) -> EFinish t ∉ w ->
  (m_thr s t = TRunning ∨ m_thr s t = TStarting) ∧
  ((msteps_in w = 0 ∧ m_co s = CMoves a t PCheckRunning) ∨ (msteps_in w = 1 ∧ m_co s = CMoves a t PPosted)).
Proof.
  intros Hr. revert w. induction Hr as [|s s' x Hr IH Hp]; intros w Ht Hd Hl Hf; [by destruct w|].
  destruct (move_step _ _ _ _ _ _ _ Hr Hp Ht Hd) as [(-> & Hu & Hco & Hth)|(e & w' & -> & Ht' & Hd')].
  - rewrite Hth, (thr_spec _ Hr), Hu. split; [done|]. by left.
  - apply not_elem_of_cons in Hf as [Hf1 Hf2]. destruct (IH _ Ht' Hd' Hl Hf2) as [Hrun Hph]. clear IH.
    apply during_cons in Hd as [He _]. destruct (step_ev _ _ _ Hp) as [e' He']. rewrite He', Ht' in Ht. injection Ht as ->.
    rewrite !msteps_cons. destruct x; cbn in Hp.
    + destruct Hph as [[_ Hco]|[_ Hco]]; rewrite Hco in Hp; done.
    + destruct Hph as [[Hs Hco]|[Hs Hco]]; rewrite Hco in Hp; cbn in Hp; [|done].
      destruct Hrun as [Hrun|Hrun]; rewrite Hrun in Hp; injection Hp as <-; injection He' as <-; cbn; rewrite Hrun; split; auto; right; by rewrite Hs.
    + destruct Hph as [[Hs Hco]|[Hs Hco]]; rewrite Hco in Hp; cbn in Hp; [done|]. destruct (live _); [|done]. injection Hp as <-. by injection He' as <-.
    + destruct Hph as [[Hs Hco]|[Hs Hco]]; rewrite Hco in Hp; cbn in Hp; [done|]. injection Hp as <-. by injection He' as <-.
    + assert (∀ y, m_co s' = m_co s ∧ e = EStart t0 ∧ (m_thr s' = upd t0 y (m_thr s) -> t0 ≠ t -> m_thr s' t = m_thr s t)) as H.
      { intros y. destruct (m_thr s t0); try done; injection Hp as <-; injection He' as <-; split_and!; try done; cbn; intros _ Hne; unfold upd; by rewrite decide_False. }
      destruct (H TStarting) as (Hco & -> & Hth). cbn. rewrite Hco.
      assert (t0 ≠ t) as Hne by (intros ->; destruct Hrun as [Hrun|Hrun]; by rewrite Hrun in Hp).
      rewrite Hth; [done| |done]. by destruct (m_thr s t0); try done; injection Hp as <-.
    + destruct (m_thr s t0) eqn:E0; try done. injection Hp as <-. injection He' as <-. cbn. split.
      * unfold upd. destruct (decide _); [by left|done].
      * destruct Hph as [[Hs Hco]|[Hs Hco]]; rewrite Hco; auto.
    + destruct (m_thr s t0) eqn:E0; try done. destruct (match m_co s with CRuns _ => _ | _ => _ end); [done|]. injection Hp as <-. injection He' as <-. cbn.
      split; [|done]. unfold upd. rewrite decide_False; [done|]. intros ->. done.
Qed.

(** Moving to a thread that has been started succeeds, unless it finishes meanwhile: exactly two steps, one of the current and one of the
    target thread's event loop, are needed, and they are possible whatever happens meanwhile. *)
Theorem C55_move_to_started_thread s w a t u : mreach thr a0 s -> m_tr s = w ++ EMove a t :: u -> during w ->
  (state_of thr t u = TRunning ∨ state_of thr t u = TStarting) -> EFinish t ∉ w ->
  msteps_in w ≤ 1 ∧
  (msteps_in w = 0 -> ∃ s', mperform MStep s = Some s' ∧ m_tr s' = EStep :: m_tr s) ∧
  (msteps_in w = 1 -> state_of thr t (m_tr s) = TRunning -> ∃ s', mperform MDeliver s = Some s' ∧ m_tr s' = EResumed t :: m_tr s).
Proof.
  intros Hr Ht Hd Hl Hf. destruct (running_move _ _ _ _ _ Hr Ht Hd Hl Hf) as [Hrun [[Hs Hco]|[Hs Hco]]]; rewrite Hs; split_and!; try lia; try done.
  - intros _. cbn. rewrite Hco. cbn. eauto.
  - intros _ Hx. cbn. rewrite Hco, (thr_spec _ Hr), Hx. cbn. eauto.
Qed.

(** Moving to a thread that is started later, that is after the coroutine connected to it (three steps). *)
Definition late_start (t : nat) (w : list tev) : Prop := ∀ w2 w1, w = w2 ++ EStart t :: w1 -> 3 ≤ msteps_in w1.
Lemma late_cons t e w : late_start t (e :: w) -> late_start t w.
Proof. intros H w2 w1 ->. by apply (H (e :: w2)). Qed.
Lemma late_move s w a t u : mreach thr a0 s -> m_tr s = w ++ EMove a t :: u -> during w ->
  state_of thr t u = TNew -> late_start t w -> EFinish t ∉ w ->
  m_co s = CMoves a t (match msteps_in w with 0 => PCheckRunning | 1 => PCheckFinished | 2 => PConnect
      | 3 => match m_thr s t with TRunning => PNotified | _ => PConnected end | _ => PPosted end) ∧
  (msteps_in w < 3 -> m_thr s t = TNew) ∧ (3 < msteps_in w -> m_thr s t = TRunning) ∧ msteps_in w ≤ 4 ∧ m_thr s t ≠ TDone.
Proof.
  intros Hr. revert w. induction Hr as [|s s' x Hr IH Hp]; intros w Ht Hd Hl Hls Hf; [by destruct w|].
  destruct (move_step _ _ _ _ _ _ _ Hr Hp Ht Hd) as [(-> & Hu & Hco & Hth)|(e & w' & -> & Ht' & Hd')].
  - change (msteps_in []) with 0. rewrite Hth, (thr_spec _ Hr), Hu, Hl. split; [done|]. split_and!; try done; first [lia | intros; exfalso; lia | intros; lia].
  - apply not_elem_of_cons in Hf as [Hf1 Hf2]. destruct (IH _ Ht' Hd' Hl (late_cons _ _ _ Hls) Hf2) as (Hco & H1 & H2 & H3 & H4). clear IH.
    apply during_cons in Hd as [He _]. destruct (step_ev _ _ _ Hp) as [e' He']. rewrite He', Ht' in Ht. injection Ht as ->.
    rewrite !msteps_cons. destruct x; cbn in Hp.
    + rewrite Hco in Hp. done.
    + rewrite Hco in Hp. unfold mstep in Hp.
      destruct (msteps_in w') as [|[|[|[|k]]]] eqn:Es; cbn in *.
      * rewrite H1 in Hp by lia. injection Hp as <-. injection He' as <-. cbn. rewrite H1 by lia. split_and!; try done; first [lia | intros; exfalso; lia | intros; lia].
      * rewrite H1 in Hp by lia. injection Hp as <-. injection He' as <-. cbn. rewrite H1 by lia. split_and!; try done; first [lia | intros; exfalso; lia | intros; lia].
      * injection Hp as <-. injection He' as <-. cbn. rewrite H1 by lia. split_and!; try done; first [lia | intros; exfalso; lia | intros; lia].
      * destruct (m_thr s t) eqn:Et; try done. destruct (live _); [|done]. injection Hp as <-. injection He' as <-. cbn. split_and!; try done; first [congruence | intros; exfalso; lia | lia].
      * done.
    + rewrite Hco in Hp. destruct (msteps_in w') as [|[|[|[|k]]]]; cbn in Hp; try done; [by destruct (m_thr s t)|].
      destruct (live _); [|done]. injection Hp as <-. by injection He' as <-.
    + rewrite Hco in Hp. destruct (msteps_in w') as [|[|[|[|k]]]]; cbn in Hp; try done;
        [destruct (m_thr s t); injection Hp as <-; by injection He' as <-|injection Hp as <-; by injection He' as <-].
    + assert (e = EStart t0 ∧ m_co s' = m_co s ∧ m_thr s' = upd t0 TStarting (m_thr s)) as (-> & Hco' & Hth).
      { destruct (m_thr s t0); try done; injection Hp as <-; by injection He' as <-. }
      cbn. rewrite Hco', Hco, Hth. unfold upd. destruct (decide (t = t0)) as [<-|Hne]; [|done].
      specialize (Hls [] w' eq_refl). destruct (msteps_in w') as [|[|[|[|k]]]] eqn:Es; try lia.
      * destruct (m_thr s t) eqn:Et; try done; split_and!; try done; first [lia | intros; exfalso; lia | intros; lia].
      * rewrite H2 in Hp by lia. done.
    + destruct (m_thr s t0) eqn:E0; try done. injection Hp as <-. injection He' as <-. cbn. rewrite Hco. unfold upd.
      destruct (decide (t = t0)) as [<-|Hne].
      * destruct (msteps_in w') as [|[|[|[|k]]]] eqn:Es; try (by rewrite H1 in E0 by lia).
        -- rewrite E0. split_and!; try done; first [lia | intros; exfalso; lia | intros; lia].
        -- split_and!; try done; first [lia | intros; exfalso; lia | intros; lia].
      * destruct (msteps_in w') as [|[|[|[|k]]]] eqn:Es; try done. destruct (m_thr s t); try done; by rewrite decide_False by congruence.
    + destruct (m_thr s t0) eqn:E0; try done. destruct (match m_co s with CRuns _ => _ | _ => _ end); [done|]. injection Hp as <-. injection He' as <-. cbn.
      assert (t ≠ t0) as Hne by (intros ->; done). unfold upd. rewrite decide_False by done. done.
Qed.
Theorem C55_move_to_new_thread s w a t u : mreach thr a0 s -> m_tr s = w ++ EMove a t :: u -> during w ->
  state_of thr t u = TNew -> late_start t w -> EFinish t ∉ w ->
  msteps_in w ≤ 4 ∧
  (* it connects, *)
  (msteps_in w < 3 -> ∃ s', mperform MStep s = Some s' ∧ m_tr s' = EStep :: m_tr s) ∧
  (* when the thread was started its own thread posts the event, *)
  (msteps_in w = 3 -> state_of thr t (m_tr s) = TRunning -> state_of thr a (m_tr s) = TRunning ->
     ∃ s', mperform MStep s = Some s' ∧ m_tr s' = EStep :: m_tr s) ∧
  (* and the other thread resumes it. *)
  (msteps_in w = 4 -> ∃ s', mperform MDeliver s = Some s' ∧ m_tr s' = EResumed t :: m_tr s).
Proof.
  intros Hr Ht Hd Hl Hls Hf. destruct (late_move _ _ _ _ _ Hr Ht Hd Hl Hls Hf) as (Hco & H1 & H2 & H3 & H4).
  pose proof (thr_spec _ Hr) as Hth. split_and!; try done.
  - intros Hlt. cbn. rewrite Hco. destruct (msteps_in w) as [|[|[|?]]]; cbn; eauto. lia.
  - intros Hs Hx Hy. cbn. rewrite Hco, Hs, Hth, Hx. cbn. rewrite Hth, Hy. cbn. eauto.
  - intros Hs. cbn. rewrite Hco, Hs. rewrite H2 by lia. cbn. eauto.
Qed.

(** ** C56 *)

Lemma msteps_reach s s' : mreach thr a0 s -> msteps s s' -> mreach thr a0 s'.
Proof. intros Hr. induction 1; [done|]. eapply mreach_S; [apply IHmsteps|]; done. Qed.

(** Violated: if the thread has finished, or finishes while the coroutine is moving there, then the coroutine is not resumed unless the thread is restarted. *)
Theorem C56_finished_thread_hangs_refuted s s' t t2 : mreach thr a0 s -> moving (m_tr s) = Some t -> state_of thr t (m_tr s) = TDone ->
  msteps s s' -> m_tr s' = t2 ++ m_tr s -> EStart t ∉ t2 -> ∀ t', EResumed t' ∉ t2.
Proof.
  intros Hr Hm Hs Hst.
  assert (∀ t2, m_tr s' = t2 ++ m_tr s -> EStart t ∉ t2 -> (∀ t', EResumed t' ∉ t2) ∧ (∀ b c, EMove b c ∉ t2) ∧ m_thr s' t = TDone ∧ (moving (m_tr s') = Some t ∨ moving (m_tr s') = None)
    ∧ match m_co s' with CRuns _ => False | _ => True end) as H.
  { clear t2. induction Hst as [s|s s1 s2 x Hst IH Hp]; intros t2 Ht Hns.
    - assert (t2 = []) as ->. { destruct t2; [done|]. apply (f_equal length) in Ht. cbn in Ht. rewrite app_length in Ht. lia. }
      split; [by intros ? ?%elem_of_nil|]. split; [by intros ? ? ?%elem_of_nil|]. rewrite (thr_spec _ Hr). split; [done|]. split; [by left|].
      pose proof (agrees_spec _ Hr) as Ha. unfold agrees in Ha. rewrite Hm in Ha. by destruct (m_co s); naive_solver.
    - destruct (step_ev _ _ _ Hp) as [e He]. specialize (IH Hr Hm Hs).
      assert (∃ t3, m_tr s1 = t3 ++ m_tr s) as [t3 H3].
      { clear -Hst. induction Hst as [|s s1 s2 x Hst IH Hp]; [by exists []|]. destruct IH as [t3 H3]. destruct (step_ev _ _ _ Hp) as [e He]. exists (e :: t3). by rewrite He, H3. }
      rewrite He, H3 in Ht. assert (t2 = e :: t3) as -> by (by apply (app_inv_tail (m_tr s)); cbn).
      apply not_elem_of_cons in Hns as [Hn1 Hn2]. destruct (IH _ H3 Hn2) as (Hnr & Hnm & Hd & Hmv & Hc). clear IH.
      pose proof (msteps_reach _ _ Hr Hst) as Hr1. pose proof (agrees_spec _ Hr1) as Ha. unfold agrees in Ha.
      assert ((∀ t', e ≠ EResumed t') ∧ (∀ b c, e ≠ EMove b c) ∧ m_thr s2 t = TDone ∧ (moving (m_tr s2) = moving (m_tr s1) ∨ moving (m_tr s2) = None)
        ∧ match m_co s2 with CRuns _ => False | _ => True end) as (G1 & G2 & G3 & G4 & G5).
      { destruct x; cbn in Hp.
        - by destruct (m_co s1).
        - destruct (m_co s1) as [|b t' p|b t' p|]; try done.
          + destruct (mstep s1 b t' p); [|done]. injection Hp as <-. cbn in He. injection He as <-. cbn. split_and!; try done. by left.
          + destruct p; try done. destruct (live _); [|done]. injection Hp as <-. injection He as <-. cbn. split_and!; try done. by left.
        - destruct (m_co s1) as [|b t' p| |]; try done. destruct p; try done. destruct (live _) eqn:E; [|done]. exfalso.
          destruct Ha as [Ha _]. assert (t' = t) as -> by (destruct Hmv as [Hmv|Hmv]; rewrite Ha in Hmv; congruence). by rewrite Hd in E.
        - destruct (m_co s1) as [|b t' p| |]; try done. destruct p; try done; injection Hp as <-; injection He as <-; cbn; (split_and!; try done; by right).
        - destruct (m_thr s1 t0); try done; injection Hp as <-; injection He as <-; cbn; (split_and!; try done; [|by left]);
            unfold upd; rewrite decide_False; try done; congruence.
        - destruct (m_thr s1 t0) eqn:E0; try done; injection Hp as <-; injection He as <-; cbn; (split_and!; try done; [|by left|]).
          + unfold upd. rewrite decide_False; [done|congruence].
          + by destruct (m_co s1) as [|b t' []|b t' []|]; try done; destruct (decide _).
        - destruct (m_thr s1 t0) eqn:E0; try done. destruct (match m_co s1 with CRuns _ => _ | _ => _ end); [done|]. injection Hp as <-. injection He as <-.
          cbn. split_and!; try done; [|by left]. unfold upd. by destruct (decide _). }
      split_and!; try done.
      + intros t' [?|?]%elem_of_cons; [by apply (G1 t')|by apply (Hnr t')].
      + intros b c [?|?]%elem_of_cons; [by apply (G2 b c)|by apply (Hnm b c)].
      + destruct G4 as [->|]; [done|by right]. }
  intros Ht Hns. by apply H.
Qed.

(** A coroutine connected to started() of a thread that runs is not resumed, unless the thread is restarted. *)
Lemma connected_hangs s s' a t t2 : mreach thr a0 s -> m_co s = CMoves a t PConnected -> state_of thr t (m_tr s) = TRunning ->
  msteps s s' -> m_tr s' = t2 ++ m_tr s -> EFinish t ∉ t2 -> ∀ t', EResumed t' ∉ t2.
Proof.
  intros Hr Hm Hs Hst.
  assert (∀ t2, m_tr s' = t2 ++ m_tr s -> EFinish t ∉ t2 -> (∀ t', EResumed t' ∉ t2) ∧ m_thr s' t = TRunning ∧
     (m_co s' = CMoves a t PConnected ∨ m_co s' = CGone a t PConnected)) as H.
  { clear t2. induction Hst as [s|s s1 s2 x Hst IH Hp]; intros t2 Ht Hns.
    - assert (t2 = []) as ->. { destruct t2; [done|]. apply (f_equal length) in Ht. cbn in Ht. rewrite app_length in Ht. lia. }
      split; [by intros ? ?%elem_of_nil|]. rewrite (thr_spec _ Hr). split; [done|]. by left.
    - destruct (step_ev _ _ _ Hp) as [e He]. specialize (IH Hr Hm Hs).
      assert (∃ t3, m_tr s1 = t3 ++ m_tr s) as [t3 H3].
      { clear -Hst. induction Hst as [|s s1 s2 x Hst IH Hp]; [by exists []|]. destruct IH as [t3 H3]. destruct (step_ev _ _ _ Hp) as [e He]. exists (e :: t3). by rewrite He, H3. }
      rewrite He, H3 in Ht. assert (t2 = e :: t3) as -> by (by apply (app_inv_tail (m_tr s)); cbn).
      apply not_elem_of_cons in Hns as [Hn1 Hn2]. destruct (IH _ H3 Hn2) as (Hnr & Hd & Hc). clear IH.
      assert ((∀ t', e ≠ EResumed t') ∧ m_thr s2 t = TRunning ∧ (m_co s2 = CMoves a t PConnected ∨ m_co s2 = CGone a t PConnected)) as (G1 & G2 & G3).
      { destruct x; cbn in Hp.
        - destruct Hc as [Hc|Hc]; by rewrite Hc in Hp.
        - destruct Hc as [Hc|Hc]; by rewrite Hc in Hp.
        - destruct Hc as [Hc|Hc]; by rewrite Hc in Hp.
        - destruct Hc as [Hc|Hc]; rewrite Hc in Hp; [|done]. injection Hp as <-. injection He as <-. split_and!; try done. by right.
        - destruct (m_thr s1 t0) eqn:E0; try done; injection Hp as <-; injection He as <-; cbn; split_and!; try done;
            unfold upd; rewrite decide_False; try done; congruence.
        - destruct (m_thr s1 t0) eqn:E0; try done; injection Hp as <-; injection He as <-; cbn. split_and!; try done.
          + unfold upd. by destruct (decide _).
          + destruct Hc as [Hc|Hc]; rewrite Hc; rewrite decide_False by congruence; auto.
        - destruct (m_thr s1 t0) eqn:E0; try done. destruct (match m_co s1 with CRuns _ => _ | _ => _ end); [done|]. injection Hp as <-. injection He as <-.
          cbn. split_and!; try done. unfold upd. rewrite decide_False; [done|congruence]. }
      split_and!; try done. intros t' [?|?]%elem_of_cons; [by apply (G1 t')|by apply (Hnr t')]. }
  intros Ht Hns. by apply H.
Qed.

(** The thread is started after isRunning() was checked (one step), and its started() is emitted before the connection (the third step). *)
Definition missed (t : nat) (w : list tev) : Prop :=
  (∀ w2 w1, w = w2 ++ EStart t :: w1 -> 1 ≤ msteps_in w1) ∧ (∀ w2 w1, w = w2 ++ EStarted t :: w1 -> msteps_in w1 ≤ 2).
Lemma missed_cons t e w : missed t (e :: w) -> missed t w.
Proof. intros [H1 H2]. split; intros w2 w1 ->; [by apply (H1 (e :: w2))|by apply (H2 (e :: w2))]. Qed.
Lemma missed_move s w a t u : mreach thr a0 s -> m_tr s = w ++ EMove a t :: u -> during w ->
  state_of thr t u = TNew -> missed t w -> EFinish t ∉ w ->
  m_co s = CMoves a t (match msteps_in w with 0 => PCheckRunning | 1 => PCheckFinished | 2 => PConnect | _ => PConnected end) ∧
  (msteps_in w = 0 -> m_thr s t = TNew) ∧ msteps_in w ≤ 3 ∧ m_thr s t ≠ TDone.
Proof.
  intros Hr. revert w. induction Hr as [|s s' x Hr IH Hp]; intros w Ht Hd Hl Hls Hf; [by destruct w|].
  destruct (move_step _ _ _ _ _ _ _ Hr Hp Ht Hd) as [(-> & Hu & Hco & Hth)|(e & w' & -> & Ht' & Hd')].
  - change (msteps_in []) with 0. rewrite Hth, (thr_spec _ Hr), Hu, Hl. split; [done|]. split_and!; try done; first [lia | intros; exfalso; lia].
  - apply not_elem_of_cons in Hf as [Hf1 Hf2]. destruct (IH _ Ht' Hd' Hl (missed_cons _ _ _ Hls) Hf2) as (Hco & H1 & H2 & H4). clear IH.
    apply during_cons in Hd as [He _]. destruct (step_ev _ _ _ Hp) as [e' He']. rewrite He', Ht' in Ht. injection Ht as ->.
    rewrite !msteps_cons. destruct x; cbn in Hp.
    + rewrite Hco in Hp. done.
    + rewrite Hco in Hp. unfold mstep in Hp.
      destruct (msteps_in w') as [|[|[|k]]] eqn:Es; cbn in *.
      * rewrite H1 in Hp by lia. injection Hp as <-. injection He' as <-. cbn. rewrite H1 by lia. split_and!; try done; first [lia | intros; exfalso; lia].
      * destruct (m_thr s t) eqn:Et; try done; injection Hp as <-; injection He' as <-; cbn; split_and!; try done; first [lia | congruence].
      * injection Hp as <-. injection He' as <-. cbn. split_and!; try done; lia.
      * done.
    + rewrite Hco in Hp. by destruct (msteps_in w') as [|[|[|k]]].
    + rewrite Hco in Hp. destruct (msteps_in w') as [|[|[|k]]]; cbn in Hp; try done. injection Hp as <-; by injection He' as <-.
    + assert (e = EStart t0 ∧ m_co s' = m_co s ∧ m_thr s' = upd t0 TStarting (m_thr s)) as (-> & Hco' & Hth).
      { destruct (m_thr s t0); try done; injection Hp as <-; by injection He' as <-. }
      cbn. rewrite Hco', Hco, Hth. unfold upd. destruct (decide (t = t0)) as [<-|Hne]; [|done].
      destruct Hls as [Hls _]. specialize (Hls [] w' eq_refl). split_and!; try done; intros; exfalso; lia.
    + destruct (m_thr s t0) eqn:E0; try done. injection Hp as <-. injection He' as <-. cbn. rewrite Hco. unfold upd.
      destruct (decide (t = t0)) as [<-|Hne].
      * destruct Hls as [_ Hls]. specialize (Hls [] w' eq_refl).
        destruct (msteps_in w') as [|[|[|k]]] eqn:Es; try lia; try (by rewrite H1 in E0 by lia); by split_and!.
      * destruct (msteps_in w') as [|[|[|k]]] eqn:Es; try done; by rewrite decide_False by congruence.
    + destruct (m_thr s t0) eqn:E0; try done. destruct (match m_co s with CRuns _ => _ | _ => _ end); [done|]. injection Hp as <-. injection He' as <-. cbn.
      assert (t ≠ t0) as Hne by (intros ->; done). unfold upd. rewrite decide_False by done. done.
Qed.
(** Violated: if the thread is started by another thread between the check and the connection, the start is missed: although the thread runs, the
    coroutine is not resumed unless the thread finishes (and is restarted). *)
Theorem C56_missed_start_hangs_refuted s w a t u s' t2 : mreach thr a0 s -> m_tr s = w ++ EMove a t :: u -> during w ->
  state_of thr t u = TNew -> missed t w -> EFinish t ∉ w -> msteps_in w = 3 -> state_of thr t (m_tr s) = TRunning ->
  msteps s s' -> m_tr s' = t2 ++ m_tr s -> EFinish t ∉ t2 -> ∀ t', EResumed t' ∉ t2.
Proof.
  intros Hr Ht Hd Hl Hls Hf Hn Hrun Hst Ht' Hf'. destruct (missed_move _ _ _ _ _ Hr Ht Hd Hl Hls Hf) as (Hco & _). rewrite Hn in Hco.
  by eapply connected_hangs.
Qed.

(** ** C82 *)

(** Violated: if the coroutine is destroyed while it waits for the thread to start, then the start of the thread (followed by one step of the event loop
    of the thread the coroutine was on) uses the destroyed frame. *)
Theorem C82_destroyed_while_moving_refuted s w a t u s1 : mreach thr a0 s -> m_tr s = w ++ EMove a t :: u -> during w ->
  state_of thr t u = TNew -> late_start t w -> EFinish t ∉ w -> msteps_in w = 3 -> state_of thr t (m_tr s) = TStarting ->
  state_of thr a (m_tr s) = TRunning -> mperform MDestroy s = Some s1 ->
  ∃ s2 s3, mperform (MStarted t) s1 = Some s2 ∧ mperform MStep s2 = Some s3 ∧ m_tr s3 = EUseAfterFree :: EStarted t :: EDestroyed :: m_tr s.
Proof.
  intros Hr Ht Hd Hl Hls Hf Hn Hst Ha H1. destruct (late_move _ _ _ _ _ Hr Ht Hd Hl Hls Hf) as (Hco & _). rewrite Hn in Hco.
  rewrite (thr_spec _ Hr), Hst in Hco. cbn in H1. rewrite Hco in H1. injection H1 as <-.
  cbn. rewrite (thr_spec _ Hr), Hst. do 2 eexists. split; [reflexivity|]. cbn. rewrite decide_True by done. cbn.
  assert (upd t TRunning (m_thr s) a = TRunning) as ->. { unfold upd. destruct (decide _); [done|]. by rewrite (thr_spec _ Hr). }
  cbn. split; reflexivity.
Qed.

(** Otherwise destroying it is harmless: the destroyed frame is used only if it was destroyed after the connection to started() (the third step) and
    before the event was posted (the fourth one), and the thread started since. *)
Definition since (s : mst) : Prop :=
  match m_co s with
  | CMoves a t p => ∃ w u, m_tr s = w ++ EMove a t :: u ∧ during w ∧
      match p with PCheckRunning => msteps_in w = 0 | PCheckFinished => msteps_in w = 1 | PConnect => msteps_in w = 2
      | PConnected => msteps_in w = 3 | PNotified => msteps_in w = 3 ∧ EStarted t ∈ w | PPosted => True end
  | CGone a t p => ∃ w2 w u, m_tr s = w2 ++ EDestroyed :: w ++ EMove a t :: u ∧ during w ∧
      match p with PConnected => msteps_in w = 3 | PNotified => msteps_in w = 3 ∧ (EStarted t ∈ w2 ∨ EStarted t ∈ w) | PPosted => True | _ => False end
  | _ => True
  end.
Definition quiet_ev (e : tev) : Prop := match e with EMove _ _ | EResumed _ | EDestroyed | EUseAfterFree | EStep => False | _ => True end.
Lemma since_ext s s' e : since s -> quiet_ev e -> m_co s' = m_co s -> m_tr s' = e :: m_tr s -> since s'.
Proof.
  unfold since. intros H He -> ->. destruct (m_co s) as [|a t p|a t p|]; try done.
  - destruct H as (w & u & -> & Hd & Hp). exists (e :: w), u. split; [done|]. split.
    { apply during_cons. split; [by destruct e|done]. }
    assert (msteps_in (e :: w) = msteps_in w) as -> by (rewrite msteps_cons; by destruct e). destruct p; try done. destruct Hp. split; [done|]. by right.
  - destruct H as (w2 & w & u & -> & Hd & Hp). exists (e :: w2), w, u. split; [done|]. split; [done|].
    destruct p; try done. destruct Hp as [? [?|?]]; (split; [done|]); [left; by right|by right].
Qed.
Lemma since_spec s : mreach thr a0 s -> since s.
Proof.
  induction 1 as [Ha|s s' x Hr IH Hp]; [done|]. destruct x; cbn in Hp.
  - destruct (m_co s); try done. injection Hp as <-. exists [], (m_tr s). split; [done|]. split; [by intros ? ?%elem_of_nil|done].
  - unfold since in IH. destruct (m_co s) as [|a t' p|a t' p|]; try done.
    + destruct (mstep s a t' p) as [p'|] eqn:E; [|done]. injection Hp as <-. destruct IH as (w & u & Ht & Hd & Hx).
      exists (EStep :: w), u. cbn. rewrite Ht. split; [done|]. split; [by apply during_cons|]. rewrite !msteps_cons.
      destruct p; cbn in E; try done.
      * injection E as <-. rewrite Hx. by destruct (m_thr s t').
      * injection E as <-. rewrite Hx. by destruct (m_thr s t').
      * injection E as <-. by rewrite Hx.
      * destruct (live _); [|done]. by injection E as <-.
    + destruct p; try done. destruct (live _); [|done]. by injection Hp as <-.
  - destruct (m_co s) as [|a t' p| |]; try done. destruct p; try done. destruct (live _) eqn:E; [|done]. by injection Hp as <-.
  - unfold since in IH. destruct (m_co s) as [|a t' p| |]; try done. destruct p; try done; injection Hp as <-; destruct IH as (w & u & Ht & Hd & Hx);
      exists [], w, u; cbn; rewrite Ht; split_and!; try done. + apply Hx. + right. apply Hx.
  - destruct (m_thr s t) eqn:Et; try done; injection Hp as <-; by eapply (since_ext s _ (EStart t)).
  - destruct (m_thr s t) eqn:Et; try done. injection Hp as <-.
    destruct (m_co s) as [|a t' p|a t' p|] eqn:Ec; try done.
    + assert (p ≠ PConnected ∨ p = PConnected) as [Hq|Hq] by (destruct p; auto).
      * eapply (since_ext s _ (EStarted t)); try done. cbn. rewrite Ec. by destruct p.
      * subst p. destruct (decide (t' = t)) as [->|Hne].
        -- unfold since in IH. rewrite Ec in IH. destruct IH as (w & u & Ht & Hd & Hx). exists (EStarted t :: w), u. cbn. rewrite Ht.
           split; [done|]. split; [by apply during_cons|]. rewrite msteps_cons. split; [done|left].
        -- eapply (since_ext s _ (EStarted t)); try done.
    + assert (p ≠ PConnected ∨ p = PConnected) as [Hq|Hq] by (destruct p; auto).
      * eapply (since_ext s _ (EStarted t)); try done. cbn. rewrite Ec. by destruct p.
      * subst p. destruct (decide (t' = t)) as [->|Hne].
        -- unfold since in IH. rewrite Ec in IH. destruct IH as (w2 & w & u & Ht & Hd & Hx). exists (EStarted t :: w2), w, u. cbn. rewrite Ht.
           split; [done|]. split; [done|]. split; [done|left; left].
        -- eapply (since_ext s _ (EStarted t)); try done.
  - destruct (m_thr s t) eqn:Et; try done. destruct (match m_co s with CRuns _ => _ | _ => _ end); [done|]. injection Hp as <-. by eapply (since_ext s _ (EFinish t)).
Qed.
Theorem C83_destroyed_otherwise s t2 t1 : mreach thr a0 s -> m_tr s = t2 ++ EUseAfterFree :: t1 ->
  ∃ w2 w a t u, t1 = w2 ++ EDestroyed :: w ++ EMove a t :: u ∧ during w ∧ msteps_in w = 3 ∧ (EStarted t ∈ w2 ∨ EStarted t ∈ w).
Proof.
  intros Hr. revert t2. induction Hr as [|s s' x Hr IH Hp]; intros t2 Ht; [by destruct t2|].
  destruct (step_ev _ _ _ Hp) as [e' He']. rewrite He' in Ht. destruct t2 as [|y t2]; [|injection Ht as -> Ht; by eapply IH].
  injection Ht as -> <-. pose proof (since_spec _ Hr) as Hs. unfold since in Hs. clear IH. destruct x; cbn in Hp.
  - destruct (m_co s); try done. injection Hp as <-. by injection He'.
  - destruct (m_co s) as [|a t' p|a t' p|]; try done.
    + destruct (mstep s a t' p); [|done]. injection Hp as <-. by injection He'.
    + destruct p; try done. destruct Hs as (w2 & w & u & Ht & Hd & Hx). exists w2, w, a, t', u. naive_solver.
  - destruct (m_co s) as [|a t' p| |]; try done. destruct p; try done. destruct (live _) eqn:E; [|done]. injection Hp as <-. by injection He'.
  - destruct (m_co s) as [|a t' p| |]; try done. destruct p; try done; injection Hp as <-; by injection He'.
  - destruct (m_thr s t); try done; injection Hp as <-; by injection He'.
  - destruct (m_thr s t); try done; injection Hp as <-; by injection He'.
  - destruct (m_thr s t); try done. destruct (match m_co s with CRuns _ => _ | _ => _ end); [done|]. injection Hp as <-. by injection He'.
Qed.
End props.

(** ** The statements are not vacuous *)

Lemma mplay_reach thr a l s : mreach thr a s -> mreach thr a (mplay l s).
Proof.
  revert s. induction l as [|x l IH]; intros s Hr; cbn; [done|]. destruct (mperform x s) eqn:E; [|done]. apply IH. by eapply mreach_S.
Qed.
Lemma mplay_steps l s : msteps s (mplay l s).
Proof.
  assert (∀ s0, msteps s0 s -> msteps s0 (mplay l s)) as H; [|apply H; constructor].
  revert s. induction l as [|x l IH]; intros s s0 Hr; cbn; [done|]. destruct (mperform x s) eqn:E; [|done]. apply IH. by eapply msteps_S.
Qed.
(** Thread 0 runs, 1 runs, 2 is new, 3 has finished. *)
Definition threads (n : nat) : tstate := match n with 0 | 1 => TRunning | 2 => TNew | _ => TDone end.
Definition m0 : mst := Mst threads (CRuns 0) [].
Lemma m0_reach l : mreach threads 0 (mplay l m0).
Proof. apply mplay_reach. by constructor. Qed.

(** To the running thread 1, and back. *)
Example there_and_back : m_tr (mplay [MMove 1; MStep; MDeliver; MMove 0; MStart 2; MStep; MDeliver] m0) =
  [EResumed 0; EStep; EStart 2; EMove 1 0; EResumed 1; EStep; EMove 0 1].
Proof. reflexivity. Qed.
Example ex_C55_started : let s := mplay [MMove 1; MStart 2; MStep] m0 in
  mreach threads 0 s ∧ m_tr s = [EStep; EStart 2] ++ EMove 0 1 :: [] ∧ during [EStep; EStart 2] ∧ state_of threads 1 [] = TRunning ∧ EFinish 1 ∉ [EStep; EStart 2]
  ∧ state_of threads 1 (m_tr s) = TRunning.
Proof.
  cbn zeta. split; [apply m0_reach|]. split; [done|]. split; [by repeat (apply during_cons; split; [done|]); intros ? ?%elem_of_nil|].
  split_and!; try done. by rewrite !elem_of_cons, elem_of_nil; intros [?|[?|?]].
Qed.
(** To thread 2, which is started later. *)
Example late_run : m_tr (mplay [MMove 2; MStep; MStep; MStep; MStart 2; MStarted 2; MStep; MDeliver] m0) =
  [EResumed 2; EStep; EStarted 2; EStart 2; EStep; EStep; EStep; EMove 0 2].
Proof. reflexivity. Qed.
Example ex_C55_new : let s := mplay [MMove 2; MStep; MStep; MStep; MStart 2; MStarted 2; MStep] m0 in let w := [EStep; EStarted 2; EStart 2; EStep; EStep; EStep] in
  mreach threads 0 s ∧ m_tr s = w ++ EMove 0 2 :: [] ∧ during w ∧ state_of threads 2 [] = TNew ∧ late_start 2 w ∧ EFinish 2 ∉ w ∧ msteps_in w = 4.
Proof.
  cbn zeta. split; [apply m0_reach|]. split; [done|]. split; [by repeat (apply during_cons; split; [done|]); intros ? ?%elem_of_nil|].
  split; [done|]. split.
  { intros w2 w1 H. do 6 (destruct w2 as [|? w2]; [first [discriminate H | injection H as <-; cbv; lia]|injection H as _ H]). by destruct w2. }
  split; [|done]. by rewrite !elem_of_cons, elem_of_nil; intuition.
Qed.
(** To thread 3, which has finished. *)
Example ex_C56_finished : let s := mplay [MMove 3; MStep; MStep] m0 in
  mreach threads 0 s ∧ moving (m_tr s) = Some 3 ∧ state_of threads 3 (m_tr s) = TDone ∧
  m_tr (mplay [MStep; MDeliver; MStart 2; MStarted 2] s) = m_tr s ∧ mperform MStep s = None ∧ mperform MDeliver s = None ∧ mperform (MMove 1) s = None.
Proof. cbn zeta. split; [apply m0_reach|]. by split_and!. Qed.
(** To thread 2, which is started just before the coroutine connects to it. *)
Example ex_C56_missed : let s := mplay [MMove 2; MStep; MStep; MStart 2; MStarted 2; MStep] m0 in let w := [EStep; EStarted 2; EStart 2; EStep; EStep] in
  mreach threads 0 s ∧ m_tr s = w ++ EMove 0 2 :: [] ∧ during w ∧ state_of threads 2 [] = TNew ∧ missed 2 w ∧ EFinish 2 ∉ w ∧ msteps_in w = 3
  ∧ state_of threads 2 (m_tr s) = TRunning ∧ mperform MStep s = None ∧ mperform MDeliver s = None.
Proof.
  cbn zeta. split; [apply m0_reach|]. split; [done|]. split; [by repeat (apply during_cons; split; [done|]); intros ? ?%elem_of_nil|].
  split; [done|]. split.
  { split; intros w2 w1 H; do 5 (destruct w2 as [|? w2]; [first [discriminate H | injection H as <-; cbv; lia]|injection H as _ H]); by destruct w2. }
  split_and!; try done. by rewrite !elem_of_cons, elem_of_nil; intuition.
Qed.
(** Destroyed while it waits for thread 2. *)
Example ex_C82 : let s := mplay [MMove 2; MStep; MStep; MStep; MStart 2] m0 in let w := [EStart 2; EStep; EStep; EStep] in
  mreach threads 0 s ∧ m_tr s = w ++ EMove 0 2 :: [] ∧ during w ∧ late_start 2 w ∧ EFinish 2 ∉ w ∧ msteps_in w = 3 ∧ state_of threads 2 (m_tr s) = TStarting ∧
  m_tr (mplay [MDestroy; MStarted 2; MStep] s) = EUseAfterFree :: EStarted 2 :: EDestroyed :: m_tr s.
Proof.
  cbn zeta. split; [apply m0_reach|]. split; [done|]. split; [by repeat (apply during_cons; split; [done|]); intros ? ?%elem_of_nil|]. split.
  { intros w2 w1 H. do 4 (destruct w2 as [|? w2]; [first [discriminate H | injection H as <-; cbv; lia]|injection H as _ H]). by destruct w2. }
  split_and!; try done. by rewrite !elem_of_cons, elem_of_nil; intuition.
Qed.

Print Assumptions C55_moved.
Print Assumptions C55_move_to_started_thread.
Print Assumptions C55_move_to_new_thread.
Print Assumptions C56_finished_thread_hangs_refuted.
Print Assumptions C56_missed_start_hangs_refuted.
Print Assumptions C82_destroyed_while_moving_refuted.
Print Assumptions C83_destroyed_otherwise.
