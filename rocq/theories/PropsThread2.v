(** * C112, C113: exactly when moveToThread() returns. The model is ThreadModel.v, the vocabulary ThreadSpec.v. *)
From stdpp Require Import list option.
From Verif Require Import ThreadModel ThreadSpec PropsThread.

(** The events since the last step of await_suspend() (or its continuation), and those before that step. *)
Fixpoint after (w : list tev) : list tev := match w with [] => [] | EStep :: _ => [] | e :: w => e :: after w end.
Fixpoint before (w : list tev) : list tev := match w with [] => [] | EStep :: w => w | _ :: w => before w end.

#[local] Arguments msteps_in : simpl never.
Section props.
Context (thr : nat -> tstate) (a0 : nat).
Implicit Types (w u : list tev).

(** The state of the target when the last step was made. *)
Definition seen (a t : nat) w u : tstate := state_of thr t (before w ++ EMove a t :: u).
(** The move is on its way to the target: it was running or starting at the first step, or it had finished at the second one; or the fourth step was made. *)
Definition sent (a t : nat) w u : Prop :=
  match msteps_in w with
  | 1 => seen a t w u = TStarting ∨ seen a t w u = TRunning
  | 2 => seen a t w u = TDone
  | 4 => True
  | _ => False
  end.
(** Another step is due: the first; the second and third unless the move is on its way; the fourth if the thread was started since the third. *)
Definition due (a t : nat) w u : Prop :=
  match msteps_in w with
  | 0 => True
  | 1 | 2 => ¬ sent a t w u
  | 3 => EStarted t ∈ after w ∧ state_of thr a (w ++ EMove a t :: u) = TRunning
  | _ => False
  end.

Definition kind (c : cpos) : nat := match c with CRuns _ => 0 | CMoves _ _ _ => 1 | CGone _ _ _ => 2 | CCrash => 3 end.
Fixpoint tkind (tr : list tev) : nat :=
  match tr with [] => 0 | EMove _ _ :: _ => 1 | EResumed _ :: _ => 0 | EDestroyed :: _ => 2 | EUseAfterFree :: _ => 3 | _ :: tr => tkind tr end.
Lemma tkind_during w tr : during w -> tkind (w ++ tr) = tkind tr.
Proof. induction w as [|e w IH]; [done|]. intros [He Hd]%during_cons. cbn. destruct e; try done; by apply IH. Qed.
Lemma kind_spec s : mreach thr a0 s -> kind (m_co s) = tkind (m_tr s).
Proof.
  induction 1 as [|s s' x Hr IH Hp]; [done|]. destruct x; cbn in Hp.
  - destruct (m_co s); try done. by injection Hp as <-.
  - destruct (m_co s) as [|a t' p|a t' p|]; try done.
    + destruct (mstep s a t' p); [|done]. by injection Hp as <-.
    + destruct p; try done. destruct (live _); [|done]. by injection Hp as <-.
  - destruct (m_co s) as [|a t' p| |]; try done. destruct p; try done. destruct (live _); [|done]. by injection Hp as <-.
  - destruct (m_co s) as [|a t' p| |]; try done. destruct p; try done; by injection Hp as <-.
  - destruct (m_thr s t); try done; injection Hp as <-; apply IH.
  - destruct (m_thr s t); try done. injection Hp as <-. cbn. destruct (m_co s) as [|a t' []|a t' []|]; try done; by destruct (decide _).
  - destruct (m_thr s t); try done. destruct (match m_co s with CRuns _ => _ | _ => _ end); [done|]. injection Hp as <-. apply IH.
Qed.

Definition at_phase (p : phase) (a t : nat) w u : Prop :=
  match p with
  | PCheckRunning => msteps_in w = 0
  | PCheckFinished => msteps_in w = 1 ∧ ¬ sent a t w u
  | PConnect => msteps_in w = 2 ∧ ¬ sent a t w u
  | PConnected => msteps_in w = 3 ∧ EStarted t ∉ after w
  | PNotified => msteps_in w = 3 ∧ EStarted t ∈ after w
  | PPosted => sent a t w u
  end.
Definition exact (s : mst) : Prop :=
  match m_co s with
  | CMoves a t p => ∃ w u, m_tr s = w ++ EMove a t :: u ∧ during w ∧ at_phase p a t w u
  | CGone a t p => ∃ w2 w u, m_tr s = w2 ++ EDestroyed :: w ++ EMove a t :: u ∧ during w2 ∧ during w ∧
      match p with
      | PConnected => msteps_in w = 3 ∧ EStarted t ∉ after w ∧ EStarted t ∉ w2
      | PNotified => msteps_in w = 3 ∧ (EStarted t ∈ after w ∨ EStarted t ∈ w2)
      | PPosted => sent a t w u
      | _ => False
      end
  | _ => True
  end.
Lemma at_ext p a t e w u : at_phase p a t w u -> quiet_ev e -> (p = PConnected -> e ≠ EStarted t) -> at_phase p a t (e :: w) u.
Proof.
  intros H He Hn. assert (msteps_in (e :: w) = msteps_in w) as Hm by (rewrite msteps_cons; by destruct e).
  assert (before (e :: w) = before w) as Hb by (by destruct e). assert (after (e :: w) = e :: after w) as Ha by (by destruct e).
  assert (sent a t (e :: w) u <-> sent a t w u) as Hs by (unfold sent, seen; by rewrite Hm, Hb).
  destruct p; cbn -[before after msteps_in]; rewrite ?Hm, ?Hs, ?Ha; try done.
  - destruct H as [? H]. split; [done|]. intros [Heq|?]%elem_of_cons; [by apply Hn|done].
  - destruct H as [? H]. split; [done|]. by right.
Qed.
Lemma quiet_during e w : quiet_ev e -> during w -> during (e :: w).
Proof. intros He Hd. apply during_cons. split; [by destruct e|done]. Qed.
Lemma exact_quiet s s' e : exact s -> quiet_ev e -> (∀ t, e ≠ EStarted t) -> m_co s' = m_co s -> m_tr s' = e :: m_tr s -> exact s'.
Proof.
  unfold exact. intros H He Hn -> ->. destruct (m_co s) as [|a t p|a t p|]; try done.
  - destruct H as (w & u & -> & Hd & Hp). exists (e :: w), u. split; [done|]. split; [by apply quiet_during|]. apply at_ext; [done..|]. intros _. apply Hn.
  - destruct H as (w2 & w & u & -> & Hd2 & Hd & Hp). exists (e :: w2), w, u. split; [done|]. split; [by apply quiet_during|]. split; [done|].
    destruct p; try done.
    + destruct Hp as (? & ? & ?). split_and!; try done. intros [Heq|?]%elem_of_cons; [by apply (Hn t)|done].
    + destruct Hp as [? [?|?]]; (split; [done|]); [by left|right; by right].
Qed.
Lemma exact_spec s : mreach thr a0 s -> exact s.
Proof.
  induction 1 as [Ha|s s' x Hr IH Hp]; [done|]. pose proof (thr_spec thr a0 _ Hr) as Hth. destruct x; cbn in Hp.
  - destruct (m_co s); try done. injection Hp as <-. exists [], (m_tr s). split; [done|]. split; [by intros ? ?%elem_of_nil|done].
  - unfold exact in IH. destruct (m_co s) as [|a t' p|a t' p|]; try done.
    + destruct (mstep s a t' p) as [p'|] eqn:E; [|done]. injection Hp as <-. destruct IH as (w & u & Ht & Hd & Hx).
      exists (EStep :: w), u. cbn -[at_phase]. rewrite Ht. split; [done|]. split; [by apply during_cons|].
      assert (seen a t' (EStep :: w) u = m_thr s t') as Hse by (unfold seen; cbn; by rewrite <- Ht, Hth).
      destruct p; cbn in E, Hx; try done.
      * injection E as <-. unfold at_phase, sent. rewrite !msteps_cons, Hx, Hse. cbn. destruct (m_thr s t'); naive_solver.
      * injection E as <-. destruct Hx as [Hx _]. unfold at_phase, sent. rewrite !msteps_cons, Hx, Hse. cbn. destruct (m_thr s t'); naive_solver.
      * injection E as <-. destruct Hx as [Hx _]. unfold at_phase. rewrite !msteps_cons, Hx. cbn. split; [done|]. by intros ?%elem_of_nil.
      * destruct (live _); [|done]. injection E as <-. destruct Hx as [Hx _]. unfold at_phase, sent. by rewrite !msteps_cons, Hx.
    + destruct p; try done. destruct (live _); [|done]. by injection Hp as <-.
  - destruct (m_co s) as [|a t' p| |]; try done. destruct p; try done. destruct (live _); [|done]. by injection Hp as <-.
  - unfold exact in IH. destruct (m_co s) as [|a t' p| |]; try done. destruct p; try done; injection Hp as <-; destruct IH as (w & u & Ht & Hd & Hx);
      exists [], w, u; cbn -[sent]; rewrite Ht; (split; [done|]; split; [by intros ? ?%elem_of_nil|]; split; [done|]).
    + destruct Hx. split_and!; try done. by intros ?%elem_of_nil.
    + destruct Hx. split; [done|by left].
    + done.
  - destruct (m_thr s t); try done; injection Hp as <-; by eapply (exact_quiet s _ (EStart t)).
  - destruct (m_thr s t); try done. injection Hp as <-. unfold exact in *. cbn. destruct (m_co s) as [|a t' p|a t' p|] eqn:Ec; try done.
    + destruct IH as (w & u & Ht & Hd & Hx).
      assert (p ≠ PConnected ∨ p = PConnected) as [Hq|Hq] by (destruct p; auto).
      * destruct p; try done; cbn -[at_phase]; exists (EStarted t :: w), u; rewrite Ht; (split; [done|]; split; [by apply quiet_during|]; by apply at_ext).
      * subst p. destruct (decide (t' = t)) as [->|Hne]; exists (EStarted t :: w), u; rewrite Ht; (split; [done|]; split; [by apply quiet_during|]).
        -- destruct Hx as [Hx _]. cbn. rewrite msteps_cons, Hx. split; [done|left].
        -- apply at_ext; [done..|]. intros _ [=]. congruence.
    + destruct IH as (w2 & w & u & Ht & Hd2 & Hd & Hx).
      assert (p ≠ PConnected ∨ p = PConnected) as [Hq|Hq] by (destruct p; auto).
      * destruct p; try done; exists (EStarted t :: w2), w, u; rewrite Ht; (split; [done|]; split; [by apply quiet_during|]; split; [done|]); [|done].
        destruct Hx as [? [?|?]]; (split; [done|]); [by left|right; by right].
      * subst p. destruct Hx as (Hx1 & Hx2 & Hx3). destruct (decide (t' = t)) as [->|Hne]; exists (EStarted t :: w2), w, u; rewrite Ht; (split; [done|]; split; [by apply quiet_during|]; split; [done|]).
        -- split; [done|]. right. left.
        -- split_and!; try done. intros [Heq|?]%elem_of_cons; [congruence|done].
  - destruct (m_thr s t); try done. destruct (match m_co s with CRuns _ => _ | _ => _ end); [done|]. injection Hp as <-. by eapply (exact_quiet s _ (EFinish t)).
Qed.
Lemma move_unique w a t u w' a' t' u' : w ++ EMove a t :: u = w' ++ EMove a' t' :: u' -> during w -> during w' -> w = w' ∧ a = a' ∧ t = t' ∧ u = u'.
Proof.
  revert w'. induction w as [|e w IH]; intros [|e' w'] H Hd Hd'.
  - by injection H as -> -> ->.
  - injection H as <- _. by apply during_cons in Hd' as [[] _].
  - injection H as -> _. by apply during_cons in Hd as [[] _].
  - injection H as -> H. apply during_cons in Hd as [_ Hd], Hd' as [_ Hd']. destruct (IH _ H Hd Hd') as (-> & ? & ? & ?). done.
Qed.
Lemma gone_unique w z w' z' : w ++ EDestroyed :: z = w' ++ EDestroyed :: z' -> during w -> during w' -> w = w' ∧ z = z'.
Proof.
  revert w'. induction w as [|e w IH]; intros [|e' w'] H Hd Hd'.
  - by injection H as ->.
  - injection H as <- _. by apply during_cons in Hd' as [[] _].
  - injection H as -> _. by apply during_cons in Hd as [[] _].
  - injection H as -> H. apply during_cons in Hd as [_ Hd], Hd' as [_ Hd']. destruct (IH _ H Hd Hd') as (-> & ?). done.
Qed.
Lemma moves_at s w a t u : mreach thr a0 s -> m_tr s = w ++ EMove a t :: u -> during w -> ∃ p, m_co s = CMoves a t p ∧ at_phase p a t w u.
Proof.
  intros Hr Ht Hd. pose proof (kind_spec s Hr) as Hk. rewrite Ht, tkind_during in Hk by done. pose proof (exact_spec s Hr) as He. unfold exact in He.
  destruct (m_co s) as [|a' t' p|a' t' p|]; try done. destruct He as (w' & u' & Ht' & Hd' & Hp). rewrite Ht in Ht'.
  destruct (move_unique _ _ _ _ _ _ _ _ Ht' Hd Hd') as (-> & -> & -> & ->). eauto.
Qed.

(** ** C112 *)
(** While the coroutine moves to t: its thread can go on iff a step is due; the target can resume it iff the move is on its way there and the target runs (its event loop). *)
Theorem C112_returns_exactly s w a t u : mreach thr a0 s -> m_tr s = w ++ EMove a t :: u -> during w ->
  ((∃ x s', mperform x s = Some s' ∧ m_tr s' = EStep :: m_tr s) <-> due a t w u) ∧
  ((∃ x s' t', mperform x s = Some s' ∧ m_tr s' = EResumed t' :: m_tr s) <-> sent a t w u ∧ state_of thr t (m_tr s) = TRunning).
Proof.
  intros Hr Ht Hd. destruct (moves_at s w a t u Hr Ht Hd) as (p & Hco & Hp). pose proof (thr_spec thr a0 _ Hr) as Hth.
  assert (∀ x s' e, mperform x s = Some s' -> m_tr s' = e :: m_tr s ->
    (e = EStep -> x = MStep) ∧ (∀ t', e = EResumed t' -> x = MDeliver)) as Hx.
  { intros x s' e Hx He. destruct x; cbn in Hx; rewrite ?Hco in Hx; try done.
    - split; [done|]. destruct (mstep s a t p); [|done]. injection Hx as <-. injection He as <-. done.
    - destruct p; try done. destruct (live _); [|done]. injection Hx as <-. injection He as <-. done.
    - destruct p; try done; injection Hx as <-; injection He as <-; done.
    - destruct (m_thr s t0); try done; injection Hx as <-; injection He as <-; done.
    - destruct (m_thr s t0); try done; injection Hx as <-; injection He as <-; done.
    - destruct (m_thr s t0); try done. destruct (match p with PCheckRunning => _ | _ => _ end); [done|]. injection Hx as <-; injection He as <-; done. }
  split; split.
  - intros (x & s' & Hs & He). destruct (Hx _ _ _ Hs He) as [Hx1 _]. rewrite (Hx1 eq_refl) in Hs. cbn in Hs. rewrite Hco in Hs.
    destruct p; cbn in Hp, Hs; unfold due.
    + by rewrite Hp.
    + destruct Hp as [-> ?]. done.
    + destruct Hp as [-> ?]. done.
    + done.
    + destruct Hp as [-> ?]. split; [done|]. rewrite <- Ht, <- Hth. by destruct (m_thr s a).
    + done.
  - intros Hdue. exists MStep. cbn. rewrite Hco. unfold due in Hdue. destruct p; cbn in Hp |- *.
    + eauto.
    + eauto.
    + eauto.
    + destruct Hp as [Hp ?]. rewrite Hp in Hdue. by destruct Hdue.
    + destruct Hp as [Hp ?]. rewrite Hp in Hdue. destruct Hdue as [_ Hdue]. rewrite <- Ht, <- Hth in Hdue. rewrite Hdue. cbn. eauto.
    + exfalso. pose proof Hp as Hp'. unfold sent in Hp'. destruct (msteps_in w) as [|[|[|[|[|?]]]]] eqn:Em; try done.
  - intros (x & s' & t' & Hs & He). destruct (Hx _ _ _ Hs He) as [_ Hx2]. rewrite (Hx2 _ eq_refl) in Hs. cbn in Hs. rewrite Hco in Hs.
    destruct p; try done. split; [done|]. rewrite <- Hth. by destruct (m_thr s t).
  - intros [Hse Hrun]. exists MDeliver. cbn. rewrite Hco. unfold sent in Hse. destruct p; cbn in Hp.
    + by rewrite Hp in Hse.
    + destruct Hp as [Hp1 Hp2]. unfold sent in Hp2. rewrite Hp1 in *. done.
    + destruct Hp as [Hp1 Hp2]. unfold sent in Hp2. rewrite Hp1 in *. done.
    + destruct Hp as [Hp1 Hp2]. by rewrite Hp1 in *.
    + destruct Hp as [Hp1 Hp2]. by rewrite Hp1 in *.
    + rewrite Hth, Hrun. cbn. eauto.
Qed.

(** ** C113 *)
(** After a coroutine was destroyed while it moved, its destroyed frame is used next iff it had connected to started() (three steps) and not gone on, the thread was started
    since, and the thread the coroutine was on runs. *)
Theorem C113_destroyed_exactly s w2 w a t u : mreach thr a0 s -> m_tr s = w2 ++ EDestroyed :: w ++ EMove a t :: u -> during w2 -> during w ->
  (∃ x s', mperform x s = Some s' ∧ m_tr s' = EUseAfterFree :: m_tr s) <->
  msteps_in w = 3 ∧ (EStarted t ∈ after w ∨ EStarted t ∈ w2) ∧ state_of thr a (m_tr s) = TRunning.
Proof.
  intros Hr Ht Hd2 Hd. pose proof (kind_spec s Hr) as Hk. rewrite Ht, tkind_during in Hk by done. pose proof (exact_spec s Hr) as He. unfold exact in He.
  pose proof (thr_spec thr a0 _ Hr) as Hth.
  destruct (m_co s) as [|a' t' p|a' t' p|] eqn:Hco; try done. destruct He as (w2' & w' & u' & Ht' & Hd2' & Hd' & Hp). rewrite Ht in Ht'.
  destruct (gone_unique _ _ _ _ Ht' Hd2 Hd2') as [<- Hz]. destruct (move_unique _ _ _ _ _ _ _ _ Hz Hd Hd') as (<- & <- & <- & <-). clear Ht' Hz Hd2' Hd'. split.
  - intros (x & s' & Hs & He). assert (p = PNotified ∧ live (m_thr s a) = true) as [-> Hl].
    { destruct x; cbn in Hs; rewrite ?Hco in Hs; try done.
      - destruct p; try done. by destruct (live _).
      - destruct (m_thr s t0); try done; injection Hs as <-; by injection He.
      - destruct (m_thr s t0); try done; injection Hs as <-; by injection He.
      - destruct (m_thr s t0); try done; injection Hs as <-; by injection He. }
    destruct Hp as [? ?]. split_and!; try done. rewrite <- Hth. by destruct (m_thr s a).
  - intros (Hm & Hst & Ha). exists MStep. cbn. rewrite Hco. rewrite <- Hth in Ha. destruct p; try done.
    + destruct Hp as (_ & ? & ?). tauto.
    + rewrite Ha. cbn. eauto.
    + unfold sent in Hp. by rewrite Hm in Hp.
Qed.
End props.

(** ** The statements are not vacuous *)
Example ex_C112 : let s := mplay [MMove 2; MStep; MStep; MStep; MStart 2; MStarted 2; MStep] m0 in let w := [EStep; EStarted 2; EStart 2; EStep; EStep; EStep] in
  mreach threads 0 s ∧ m_tr s = w ++ EMove 0 2 :: [] ∧ during w ∧ sent threads 0 2 w [] ∧ state_of threads 2 (m_tr s) = TRunning.
Proof. cbn zeta. split; [apply m0_reach|]. split; [done|]. split; [by repeat (apply during_cons; split; [done|]); intros ? ?%elem_of_nil|]. done. Qed.
(** The start is missed: the move is stuck. *)
Example ex_C112_stuck : let s := mplay [MMove 2; MStep; MStep; MStart 2; MStarted 2; MStep] m0 in let w := [EStep; EStarted 2; EStart 2; EStep; EStep] in
  mreach threads 0 s ∧ m_tr s = w ++ EMove 0 2 :: [] ∧ during w ∧ ¬ sent threads 0 2 w [] ∧ ¬ due threads 0 2 w [].
Proof.
  cbn zeta. split; [apply m0_reach|]. split; [done|]. split; [by repeat (apply during_cons; split; [done|]); intros ? ?%elem_of_nil|]. split; [by intros ?|].
  intros [H _]. by apply elem_of_nil in H.
Qed.
(** The coroutine's own thread has finished when thread 2 reports its start: the move is stuck; if thread 2 finished after the event was posted: also. *)
Example ex_C112_left : let s := mplay [MMove 2; MStep; MStep; MStep; MFinish 0; MStart 2; MStarted 2] m0 in
  m_tr s = [EStarted 2; EStart 2; EFinish 0; EStep; EStep; EStep; EMove 0 2] ∧ mperform MStep s = None ∧ mperform MDeliver s = None.
Proof. done. Qed.
Example ex_C112_target_left : let s := mplay [MMove 1; MStep; MFinish 1] m0 in
  m_tr s = [EFinish 1; EStep; EMove 0 1] ∧ mperform MStep s = None ∧ mperform MDeliver s = None.
Proof. done. Qed.
Example ex_C113 : let s := mplay [MMove 2; MStep; MStep; MStep; MStart 2; MDestroy; MStarted 2] m0 in let w := [EStart 2; EStep; EStep; EStep] in
  mreach threads 0 s ∧ m_tr s = [EStarted 2] ++ EDestroyed :: w ++ EMove 0 2 :: [] ∧ during [EStarted 2] ∧ during w ∧ msteps_in w = 3 ∧ state_of threads 0 (m_tr s) = TRunning.
Proof.
  cbn zeta. split; [apply m0_reach|]. split; [done|]. do 2 (split; [by repeat (apply during_cons; split; [done|]); intros ? ?%elem_of_nil|]). done.
Qed.
Print Assumptions C112_returns_exactly.
Print Assumptions C113_destroyed_exactly.
