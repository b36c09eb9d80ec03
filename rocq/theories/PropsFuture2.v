(** * C105: when awaiting a QFuture blocks, is undefined, or resumes a destroyed coroutine, exactly (see C84-C87 for the violations). *)
From stdpp Require Import list option.
From Verif Require Import FutureModel FutureSpec PropsFuture.

(** The result is only taken from a finished future. *)
Definition took (s : fstate) : Prop := f_taken s = true -> f_fin s = true ∧ f_res s ≠ None ∧ f_exc s = None.
Lemma took_resume s i k : took s -> took (resume i k s).
Proof.
  intros H. unfold resume. destruct (obtain k s) as [[t f]|] eqn:E; [|done]. destruct t; [|done]. intros _. cbn.
  unfold obtain in E. destruct (f_exc s) eqn:Ex; [done|]. destruct k; [by destruct (f_res s); [|destruct (f_fin s)]|by destruct (f_fin s)|].
  destruct (f_fin s); [|done]. by destruct (f_res s).
Qed.
Lemma took_reach s : freach s -> took s.
Proof.
  induction 1 as [|s s' x Hr IH Hp]; [done|]. destruct x as [i k|i|i|i|i|v|e| |]; cbn in Hp.
  - destruct (f_aw s i); try done. injection Hp as <-. destruct (_ || _); [by apply took_resume|done].
  - by destruct (f_aw s i); try done; injection Hp as <-.
  - destruct (f_aw s i) as [| | |k| |[]|]; try done; injection Hp as <-; [by apply took_resume|done].
  - destruct (f_aw s i) as [| | | |k| |]; try done. destruct (obtain k s); [|done]. injection Hp as <-. by apply took_resume.
  - by destruct (f_aw s i); try done; injection Hp as <-.
  - destruct (f_fin s || f_can s) eqn:E; [done|]. destruct (f_res s); [done|]. injection Hp as <-. intros Ht. by destruct (IH Ht) as (? & ? & ?).
  - destruct (f_fin s || f_can s) eqn:E; [done|]. destruct (f_res s) eqn:Er; [done|]. injection Hp as <-. intros Ht. destruct (IH Ht) as (? & ? & ?). congruence.
  - by injection Hp as <-.
  - destruct (f_fin s); [done|]. injection Hp as <-. intros Ht. by destruct (IH Ht) as (? & ? & ?).
Qed.

(** What an await that does not suspend, or that is resumed, observes, by cases. *)
Inductive reaction := Throws | Answers | Undefined | Blocks.
Definition reacts (k : fkind) (tr : list fev) : reaction :=
  if raised tr then Throws else
  match k with
  | KVoid => if finished tr then Answers else Blocks
  | KResult => match reported tr with Some _ => if taken tr then Undefined else Answers | None => if finished tr then Undefined else Blocks end
  | KTake => if finished tr then match reported tr with Some _ => if taken tr then Undefined else Answers | None => Undefined end else Blocks
  end.
Definition shows (i : nat) (e : fev) (r : reaction) : Prop :=
  match r with Throws => ∃ x, e = FEThrow i x | Answers => ∃ v, e = FEReturn i v | Undefined => e = FEUndef i | Blocks => e = FEBlock i end.
Lemma obtain_reacts s k i e : f_fin s = finished (f_tr s) -> f_res s = reported (f_tr s) -> f_exc s = raised (f_tr s) -> f_taken s = taken (f_tr s) ->
  f_tr (resume i k s) = e :: f_tr s -> shows i e (reacts k (f_tr s)).
Proof.
  intros H1 H2 H3 H4 He. destruct (resume_ev s i k) as (e' & He' & _ & _ & Hx). rewrite He in He'. injection He' as <-.
  unfold reacts. rewrite <- H1, <- H2, <- H3, <- H4. unfold obtain in Hx. destruct (f_exc s); [subst e; cbn; eauto|].
  destruct k; [destruct (f_res s); [destruct (f_taken s)|destruct (f_fin s)]|destruct (f_fin s)|destruct (f_fin s); [destruct (f_res s); [destruct (f_taken s)|]|]]; subst e; cbn; eauto.
Qed.
(** co_await in any state: suspends (i.e. goes on to await_suspend()) iff the future is running and not canceled, else reacts. *)
Theorem C105_await s s' i k : freach s -> fperform (FAwait i k) s = Some s' ->
  if finished (f_tr s) || canceled (f_tr s) || bool_decide (is_Some (raised (f_tr s)))
  then ∃ e, f_tr s' = e :: FEAwait i k :: f_tr s ∧ shows i e (reacts k (f_tr s))
  else f_tr s' = FEAwait i k :: f_tr s.
Proof.
  intros Hr Hp. pose proof (freach_inv _ Hr) as [H1 H2 H3 H4 H5 H6 H7]. cbn in Hp. destruct (f_aw s i); try done. injection Hp as <-.
  rewrite H1, H2, orb_assoc. destruct (finished (f_tr s) || canceled (f_tr s) || bool_decide (is_Some (raised (f_tr s)))) eqn:E.
  - destruct (resume_ev (say (FEAwait i k) s) i k) as (e & He & _). exists e. split; [done|]. by apply (obtain_reacts (say (FEAwait i k) s) k i e).
  - done.
Qed.
(** Resuming: the same. *)
Theorem C105_resume s s' i k : freach s -> waits i k (f_tr s) -> fperform (FDeliver i) s = Some s' ->
  ∃ e, f_tr s' = e :: f_tr s ∧ shows i e (reacts k (f_tr s)).
Proof.
  intros Hr [Hw1 Hw2] Hp. pose proof (freach_inv _ Hr) as [H1 H2 H3 H4 H5 H6 H7]. cbn in Hp. specialize (H7 i). destruct (f_aw s i) as [| | |k'| |[]|]; try done; injection Hp as <-.
  - destruct H7 as (? & _). assert (k' = k) as -> by congruence. destruct (resume_ev s i k) as (e & He & _). exists e. split; [done|]. by apply obtain_reacts.
  - destruct H7 as (_ & ? & _). congruence.
Qed.
(** It blocks iff the future was canceled and runs on, has no exception, and (for result()) has no result. *)
Theorem C105_blocks_iff s s' i k : freach s -> fperform (FAwait i k) s = Some s' ->
  FEBlock i :: FEAwait i k :: f_tr s = f_tr s' <->
  canceled (f_tr s) = true ∧ finished (f_tr s) = false ∧ raised (f_tr s) = None ∧ (k = KResult -> reported (f_tr s) = None).
Proof.
  intros Hr Hp. pose proof (C105_await s s' i k Hr Hp) as H. split.
  - intros He. rewrite <- He in H. destruct (finished (f_tr s) || canceled (f_tr s) || _) eqn:E; [|by apply (f_equal length) in H; cbn in H; lia].
    destruct H as (e & [= <-] & H). unfold reacts in H. destruct (raised (f_tr s)) eqn:Ex; [by destruct H|].
    rewrite bool_decide_eq_false_2 in E by (by intros [? ?]). rewrite orb_false_r in E.
    destruct k; [destruct (reported (f_tr s)) eqn:Er; [by destruct (taken (f_tr s)); [|destruct H]|]|..]; destruct (finished (f_tr s)); cbn in E; try done; try (by destruct H).
    destruct (reported (f_tr s)); [|done]. by destruct (taken (f_tr s)); [|destruct H].
  - intros (Hc & Hf & Hx & Hres). rewrite Hf, Hc in H. cbn in H. destruct H as (e & -> & H). unfold reacts in H. rewrite Hx, Hf in H. destruct k; [rewrite Hres in H by done|..]; by rewrite H.
Qed.
(** It is undefined iff a value is wanted, and the future has finished without a result or exception, or the result was taken. *)
Theorem C105_undefined_iff s s' i k : freach s -> fperform (FAwait i k) s = Some s' ->
  FEUndef i :: FEAwait i k :: f_tr s = f_tr s' <->
  k ≠ KVoid ∧ finished (f_tr s) = true ∧ raised (f_tr s) = None ∧ (reported (f_tr s) = None ∨ taken (f_tr s) = true).
Proof.
  intros Hr Hp. pose proof (C105_await s s' i k Hr Hp) as H. pose proof (took_reach s Hr) as Htk. unfold took in Htk.
  pose proof (freach_inv _ Hr) as [H1 H2 H3 H4 H5 H6 H7]. rewrite H1, H3, H4, H6 in Htk. split.
  - intros He. rewrite <- He in H. destruct (finished (f_tr s) || canceled (f_tr s) || _) eqn:E; [|by apply (f_equal length) in H; cbn in H; lia].
    destruct H as (e & [= <-] & H). unfold reacts in H. destruct (raised (f_tr s)) eqn:Ex; [by destruct H|].
    destruct k; [destruct (reported (f_tr s)) eqn:Er; [destruct (taken (f_tr s)) eqn:Et; [destruct Htk as (? & ? & ?); auto|by destruct H]|destruct (finished (f_tr s)); auto; done]| |].
    + by destruct (finished (f_tr s)); [destruct H|].
    + destruct (finished (f_tr s)); [|done]. destruct (reported (f_tr s)); [destruct (taken (f_tr s)); [auto|by destruct H]|auto].
  - intros (Hk & Hf & Hx & Hres). rewrite Hf in H. cbn in H. destruct H as (e & -> & H). unfold reacts in H. rewrite Hx, Hf in H. destruct k; [|done|].
    + destruct (reported (f_tr s)); [destruct Hres as [|Ht]; [done|]; rewrite Ht in H|]; by rewrite H.
    + destruct (reported (f_tr s)); [destruct Hres as [|Ht]; [done|]; rewrite Ht in H|]; by rewrite H.
Qed.
(** A destroyed coroutine is resumed iff it was destroyed while it waited, once the future has finished. *)
Theorem C105_stale_iff s i : freach s ->
  (∃ s', fperform (FDeliver i) s = Some s' ∧ f_tr s' = FEStale i :: f_tr s) <-> lost i (f_tr s) = true ∧ finished (f_tr s) = true.
Proof.
  intros Hr. split; [|intros [? ?]; by apply C87_destroyed_resumed_refuted].
  intros (s' & Hp & He). pose proof (freach_inv _ Hr) as Hi. pose proof (v_aw _ Hi i) as Ha. rewrite (lost_spec _ Hr). cbn in Hp.
  destruct (f_aw s i) as [| | |k| |[]|]; try done.
  - injection Hp as <-. exfalso. destruct (resume_ev s i k) as (e & He' & _ & _ & Hx). rewrite He in He'. injection He' as <-. pose proof (obtain_spec s k i Hi) as Ho.
    destruct (obtain k s) as [[t f]|]; [|done]. destruct Ho as [(y & Hy & _)|(_ & [(_ & Hy & _)|[(_ & _ & v & Hy & _)|(_ & Hy & _)]])]; congruence.
  - destruct Ha as (_ & _ & <-). done.
Qed.
Print Assumptions C105_await.
Print Assumptions C105_resume.
Print Assumptions C105_blocks_iff.
Print Assumptions C105_undefined_iff.
Print Assumptions C105_stale_iff.
(** a future with an exception; a canceled one that runs on, with and without a result; one whose result was taken; a destroyed awaiter *)
Example ex_C105 : let p l := fplay l fut0 in let tr l := f_tr (p l) in freach (p [FCancel]) ∧ freach (p [FAwait 1 KTake; FWatch 1; FReport 7; FFinish; FDeliver 1]) ∧
  tr [FThrow 3; FAwait 0 KResult] = [FEThrow 0 3; FEAwait 0 KResult; FEExc 3] ∧
  tr [FCancel; FAwait 0 KTake] = [FEBlock 0; FEAwait 0 KTake; FECancel] ∧
  tr [FReport 7; FCancel; FAwait 0 KResult] = [FEReturn 0 (Some 7); FEAwait 0 KResult; FECancel; FEReport 7] ∧
  tr [FAwait 1 KTake; FWatch 1; FReport 7; FFinish; FDeliver 1; FAwait 0 KResult] =
    [FEUndef 0; FEAwait 0 KResult; FEReturn 1 (Some 7); FEFinish; FEReport 7; FESuspend 1; FEAwait 1 KTake] ∧
  tr [FAwait 0 KResult; FWatch 0; FDestroy 0; FReport 7; FFinish; FDeliver 0] = [FEStale 0; FEFinish; FEReport 7; FEDestroy 0; FESuspend 0; FEAwait 0 KResult].
Proof. cbn zeta. split; [apply fut_reach|]. split; [apply fut_reach|]. by split_and!. Qed.
