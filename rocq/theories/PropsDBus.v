(** * Properties of co_await QDBusPendingCall / QDBusPendingReply: C57, C88-C91. The model is DBusModel.v, the vocabulary DBusSpec.v. *)
From stdpp Require Import list option.
From Verif Require Import DBusModel DBusSpec.

Section props.
Context (null : bool).

Definition daw_ok (i : nat) (tr : list dev) (x : dawst) : Prop :=
  match x with
  | DIdle => dasked i tr = None ∧ danswered i tr = false ∧ late null i tr = None ∧ dlost null i tr = false
  | DChecked k => dasked i tr = Some k ∧ danswered i tr = false ∧ late null i tr = None ∧ dlost null i tr = false
  | DWait k => dasked i tr = Some k ∧ danswered i tr = false ∧ late null i tr = Some false ∧ dlost null i tr = false ∧ notified tr = false
  | DPosted k => dasked i tr = Some k ∧ danswered i tr = false ∧ late null i tr = Some false ∧ dlost null i tr = false ∧ notified tr = true
  | DLost k => dasked i tr = Some k ∧ danswered i tr = false ∧ late null i tr = Some true ∧ dlost null i tr = false
  | DGone b => dasked i tr ≠ None ∧ danswered i tr = true ∧ dlost null i tr = true ∧ b = notified tr
  | DDone => dasked i tr ≠ None ∧ danswered i tr = true ∧ dlost null i tr = false
  end.
Definition help_ok (tr : list dev) (h : helper) : Prop :=
  match h with
  | HNull => null = true ∧ notified tr = false ∧ replied null tr ≠ None
  | HNone => null = false ∧ watched tr = false ∧ notified tr = false
  | HIdle => null = false ∧ watched tr = true ∧ notified tr = false ∧ replied null tr = None
  | HQueued => null = false ∧ watched tr = true ∧ notified tr = false ∧ replied null tr ≠ None
  | HEmitted => null = false ∧ watched tr = true ∧ notified tr = true ∧ replied null tr ≠ None
  end.
Record dinv (s : dst) : Prop := {
  w_reply : d_reply s = replied null (d_tr s);
  w_help : help_ok (d_tr s) (d_help s);
  w_aw : ∀ i, daw_ok i (d_tr s) (d_aw s i) }.

Definition dof (e : dev) : option nat := match e with DEAwait i _ | DESuspend i | DEReturn i _ | DEDestroy i | DEStale i => Some i | _ => None end.
Lemma dother e i j tr : dof e = Some i -> j ≠ i ->
  dasked j (e :: tr) = dasked j tr ∧ danswered j (e :: tr) = danswered j tr ∧ late null j (e :: tr) = late null j tr ∧ dlost null j (e :: tr) = dlost null j tr ∧ notified (e :: tr) = notified tr.
Proof.
  intros He Hne. destruct e; try done; injection He as <-; cbn; rewrite ?decide_False, ?(bool_decide_eq_false_2 (i0 = j)), ?(bool_decide_eq_true_2 (i0 ≠ j)) by congruence; done.
Qed.
Lemma dother_ok e i j tr x : dof e = Some i -> j ≠ i -> daw_ok j tr x -> daw_ok j (e :: tr) x.
Proof. intros He Hne. destruct (dother e i j tr He Hne) as (H1 & H2 & H3 & H4 & H5). destruct x; unfold daw_ok; rewrite ?H1, ?H2, ?H3, ?H4, ?H5; done. Qed.
(** A step of awaiter [i]; the helper may change. *)
Lemma dinv_awaiter s i e x h : dinv s -> dof e = Some i -> help_ok (e :: d_tr s) h -> daw_ok i (e :: d_tr s) x -> dinv (dhelp h (dsay e (dput i x s))).
Proof.
  intros [H1 H2 H3] He Hh Hx. split; [|done|].
  - cbn [dhelp dsay dput d_reply d_tr]. rewrite H1. by destruct e.
  - intros j. cbn [dhelp dsay dput d_aw d_tr]. destruct (decide (j = i)) as [->|Hne]; [done|]. by eapply dother_ok.
Qed.
Lemma help_keep tr e h i : dof e = Some i -> (∀ j, e ≠ DESuspend j) ∨ h ≠ HNone -> help_ok tr h -> help_ok (e :: tr) h.
Proof. intros He Hs Hh. destruct e; try done; destruct h; try done; cbn in *; try (by destruct Hh as (?&?&?&?)); naive_solver. Qed.
Lemma dinv_awaiter' s i e x : dinv s -> dof e = Some i -> (∀ j, e ≠ DESuspend j) ∨ d_help s ≠ HNone -> daw_ok i (e :: d_tr s) x -> dinv (dsay e (dput i x s)).
Proof. intros Hi He Hs Hx. apply (dinv_awaiter s i e x (d_help s)); try done. eapply help_keep; [done|done|apply Hi]. Qed.
Lemma dglobal e j tr : dof e = None ->
  dasked j (e :: tr) = dasked j tr ∧ danswered j (e :: tr) = danswered j tr ∧ late null j (e :: tr) = late null j tr ∧ dlost null j (e :: tr) = dlost null j tr.
Proof. intros He. by destruct e. Qed.
Lemma dglobal_ok e j tr x : dof e = None -> notified tr = false -> daw_ok j tr x -> daw_ok j (e :: tr) (if notified (e :: tr) then emit x else x).
Proof.
  intros He Hn. destruct (dglobal e j tr He) as (H1 & H2 & H3 & H4). destruct (notified (e :: tr)) eqn:E.
  - destruct x; unfold daw_ok, emit; rewrite ?H1, ?H2, ?H3, ?H4, ?E; try done; naive_solver.
  - destruct x; unfold daw_ok; rewrite ?H1, ?H2, ?H3, ?H4, ?E, ?Hn; done.
Qed.

Lemma dinv_step s s' x : dinv s -> dperform x s = Some s' -> dinv s'.
Proof.
  intros Hi Hp. pose proof Hi as [H1 H2 H3]. destruct x as [i k|i|i|i|m|]; cbn in Hp.
  - specialize (H3 i) as Hw. destruct (d_aw s i) eqn:Ea; try done. destruct Hw as (Hw1 & Hw2 & Hw3 & Hw4). injection Hp as <-.
    assert (dinv (dsay (DEAwait i k) (dput i (DChecked k) s))) as Ha.
    { apply dinv_awaiter'; [done|done|by left|]. cbn. by rewrite decide_True. }
    destruct (d_reply s) as [m|]; [|exact Ha]. destruct (checks k); [|exact Ha].
    assert (dinv (dsay (DEReturn i m) (dput i DDone (dsay (DEAwait i k) (dput i (DChecked k) s))))) as Hb.
    { apply dinv_awaiter'; [done|done|by left|]. cbn. rewrite decide_True, bool_decide_eq_true_2 by done. done. }
    destruct Hb as [J1 J2 J3]. split; [done|done|]. intros j. specialize (J3 j). cbn in *. by destruct (decide (j = i)).
  - specialize (H3 i) as Hw. destruct (d_aw s i) as [|k| | | | |] eqn:Ea; try done. destruct Hw as (Hw1 & Hw2 & Hw3 & Hw4). injection Hp as <-.
    destruct (d_help s) eqn:Eh; cbn [help_ok] in H2.
    + apply (dinv_awaiter' s i (DESuspend i) (DLost k)); [done|done|right; congruence|]. cbn. rewrite decide_True by done. destruct H2 as (Hn & _). split_and!; try done. by rewrite Hn.
    + destruct H2 as (Hn & Hwt & Hno). apply (dinv_awaiter s i (DESuspend i) (DWait k) (match d_reply s with Some _ => HQueued | None => HIdle end)); [done|done| |].
      * rewrite H1. destruct (replied null (d_tr s)) eqn:Er; cbn; rewrite Er; done.
      * cbn. rewrite decide_True by done. split_and!; try done. by rewrite Hn, Hno.
    + apply (dinv_awaiter' s i (DESuspend i) (DWait k)); [done|done|right; congruence|]. cbn. rewrite decide_True by done. destruct H2 as (Hn & _ & Hno & _). split_and!; try done. by rewrite Hn, Hno.
    + apply (dinv_awaiter' s i (DESuspend i) (DWait k)); [done|done|right; congruence|]. cbn. rewrite decide_True by done. destruct H2 as (Hn & _ & Hno & _). split_and!; try done. by rewrite Hn, Hno.
    + apply (dinv_awaiter' s i (DESuspend i) (DLost k)); [done|done|right; congruence|]. cbn. rewrite decide_True by done. destruct H2 as (Hn & _ & Hno & _). split_and!; try done. by rewrite Hn, Hno.
  - specialize (H3 i) as Hw. destruct (d_aw s i) as [| | |k| |[]|] eqn:Ea; try done.
    + destruct (d_reply s) as [m|]; [|done]. injection Hp as <-. destruct Hw as (Hw1 & Hw2 & Hw3 & Hw4 & Hw5). apply dinv_awaiter'; [done|done|by left|].
      cbn. rewrite bool_decide_eq_true_2 by done. split_and!; [congruence|done|done].
    + injection Hp as <-. destruct Hw as (Hw1 & Hw2 & Hw3 & Hw4). apply dinv_awaiter'; [done|done|by left|].
      cbn. rewrite bool_decide_eq_false_2; [done|]. by intros H; apply H.
  - specialize (H3 i) as Hw.
    destruct (d_aw s i) as [| |k|k|k| |] eqn:Ea; try done.
    + destruct Hw as (Hw1 & Hw2 & Hw3 & Hw4 & Hw5). destruct k; injection Hp as <-; (apply dinv_awaiter'; [done|done|by left|]); cbn;
        rewrite bool_decide_eq_true_2, decide_True, Hw1, ?Hw3 by done; done.
    + destruct Hw as (Hw1 & Hw2 & Hw3 & Hw4 & Hw5). destruct k; injection Hp as <-; (apply dinv_awaiter'; [done|done|by left|]); cbn;
        rewrite bool_decide_eq_true_2, decide_True, Hw1, ?Hw3 by done; done.
    + destruct Hw as (Hw1 & Hw2 & Hw3 & Hw4). injection Hp as <-. apply dinv_awaiter'; [done|done|by left|]. cbn.
      rewrite bool_decide_eq_true_2, decide_True, Hw1, ?Hw3 by done. by destruct k.
  - destruct (d_reply s) eqn:Er; [done|]. injection Hp as <-. destruct (d_help s) eqn:Eh; cbn [help_ok] in H2.
    + exfalso. destruct H2 as (_ & _ & H2). congruence.
    + destruct H2 as (Hn & Hwt & Hno). split; [done|cbn; rewrite ?Eh; done|]. intros j. pose proof (dglobal_ok (DEFinish m) j (d_tr s) (d_aw s j) eq_refl Hno (H3 j)) as H.
      cbn [notified] in H. by rewrite Hwt in H.
    + destruct H2 as (Hn & Hwt & Hno & Hre). split; [done|cbn; done|]. intros j. pose proof (dglobal_ok (DEFinish m) j (d_tr s) (d_aw s j) eq_refl Hno (H3 j)) as H.
      cbn [notified] in H. by rewrite Hwt in H.
    + exfalso. destruct H2 as (_ & _ & _ & H2). congruence.
    + exfalso. destruct H2 as (_ & _ & _ & H2). congruence.
  - destruct (d_help s) eqn:Eh; try done. injection Hp as <-. destruct H2 as (Hn & Hwt & Hno & Hre). split; [done|done|].
    intros j. by pose proof (dglobal_ok DEEmit j (d_tr s) (d_aw s j) eq_refl Hno (H3 j)) as H.
Qed.
Lemma dreach_inv s : dreach null s -> dinv s.
Proof.
  induction 1 as [|s s' x Hr IH Hp]; [|by eapply dinv_step].
  assert (null = true ∨ null = false) as [E|E] by (destruct null; auto); split; unfold dbus0; rewrite E; cbn; rewrite ?E; done.
Qed.

(** ** C57 *)

Definition dstep_ok (tr : list dev) (e : dev) : Prop :=
  match e with
  | DEReturn i m => ∃ k, dwaits i k tr ∧ replied null tr = Some m
  | DEAwait i _ => dasked i tr = None
  | DESuspend i => (∃ k, dwaits i k tr) ∧ late null i tr = None
  | DEDestroy i => ∃ k, dwaits i k tr
  | DEStale i => dlost null i tr = true
  | DEEmit => watched tr = true ∧ replied null tr ≠ None
  | _ => True
  end.
Lemma dstep_events s s' x : dreach null s -> dperform x s = Some s' ->
  (∃ e, d_tr s' = e :: d_tr s ∧ dstep_ok (d_tr s) e) ∨
  (∃ i k m, x = DAwait i k ∧ k ≠ DCall ∧ d_tr s' = DEReturn i m :: DEAwait i k :: d_tr s ∧ replied null (d_tr s) = Some m ∧ dasked i (d_tr s) = None ∧ danswered i (d_tr s) = false).
Proof.
  intros Hr Hp. pose proof (dreach_inv _ Hr) as [H1 H2 H3]. destruct x as [i k|i|i|i|m|]; cbn in Hp.
  - specialize (H3 i). destruct (d_aw s i) eqn:Ea; try done. destruct H3 as (Hw1 & Hw2 & Hw3 & Hw4). injection Hp as <-.
    destruct (d_reply s) as [m|] eqn:Er; [|left; eexists; split; [reflexivity|done]].
    destruct (checks k) eqn:Ek; [right|left; eexists; split; [reflexivity|done]]. exists i, k, m. split_and!; try done. by intros ->.
  - left. specialize (H3 i). destruct (d_aw s i) as [|k| | | | |] eqn:Ea; try done. destruct H3 as (Hw1 & Hw2 & Hw3 & Hw4). injection Hp as <-. exists (DESuspend i). split; [by destruct (d_help s)|].
    split; [|done]. by exists k.
  - left. specialize (H3 i). destruct (d_aw s i) as [| | |k| |[]|] eqn:Ea; try done.
    + destruct (d_reply s) as [m|] eqn:Er; [|done]. injection Hp as <-. eexists. split; [reflexivity|]. exists k. split; [split; apply H3|by rewrite <- H1].
    + injection Hp as <-. eexists. split; [reflexivity|]. apply H3.
  - left. specialize (H3 i). destruct (d_aw s i) as [| |k|k|k| |] eqn:Ea; try done; [destruct k..|]; injection Hp as <-; eexists; (split; [reflexivity|]); eexists; split; apply H3.
  - left. destruct (d_reply s) eqn:Er; [done|]. injection Hp as <-. exists (DEFinish m). split; [|done]. by destruct (d_help s).
  - left. destruct (d_help s) eqn:Eh; try done. injection Hp as <-. eexists. split; [reflexivity|]. (by destruct H2 as (_ & ? & _ & ?)).
Qed.
(** Every co_await is answered at most once, with the reply of the call. *)
Theorem C57_answers s t2 i m t1 : dreach null s -> d_tr s = t2 ++ DEReturn i m :: t1 -> ∃ k, dwaits i k t1 ∧ replied null t1 = Some m.
Proof.
  intros Hr. revert t2 t1. induction Hr as [|s s' x Hr IH Hp]; intros t2 t1 Ht; [assert (d_tr (dbus0 null) = []) as E by (unfold dbus0; by destruct null); rewrite E in Ht; by destruct t2|].
  destruct (dstep_events _ _ _ Hr Hp) as [(e & He & Hs)|(j & k & m' & _ & _ & He & Hm & Ha & Hb)]; rewrite He in Ht.
  - destruct t2; cbn in Ht; [by injection Ht as -> <-|]. injection Ht as _ Ht. by eapply IH.
  - destruct t2 as [|? [|? t2]]; cbn in Ht; [|done|].
    + injection Ht as -> -> <-. exists k. split; [|done]. split; [cbn; by rewrite decide_True|done].
    + injection Ht as _ _ Ht. by eapply IH.
Qed.
(** co_await on a call or a reply that has finished, and waitForFinished() of a reply, do not suspend. *)
Theorem C57_no_suspend s s' i k m : dreach null s -> replied null (d_tr s) = Some m -> k ≠ DCall -> dperform (DAwait i k) s = Some s' ->
  d_tr s' = DEReturn i m :: DEAwait i k :: d_tr s.
Proof.
  intros Hr Hm Hk Hp. pose proof (dreach_inv _ Hr) as [H1 H2 H3]. cbn in Hp. destruct (d_aw s i); try done. injection Hp as <-. rewrite H1, Hm. by destruct k.
Qed.
(** Who is suspended before the others are notified is resumed with the reply. *)
Theorem C57_resumed s i k m : dreach null s -> dwaits i k (d_tr s) -> late null i (d_tr s) = Some false -> replied null (d_tr s) = Some m ->
  ∃ s', (dperform (DDeliver i) s = Some s' ∧ d_tr s' = DEReturn i m :: d_tr s) ∨
     (∃ s1, dperform DEmit s = Some s1 ∧ dperform (DDeliver i) s1 = Some s' ∧ d_tr s' = DEReturn i m :: DEEmit :: d_tr s).
Proof.
  intros Hr [Hw1 Hw2] Hl Hm. pose proof (dreach_inv _ Hr) as [H1 H2 H3]. specialize (H3 i).
  destruct (d_aw s i) as [|k'|k'|k'|k'|b|] eqn:Ea; cbn in H3.
  - destruct H3; congruence.
  - destruct H3 as (_ & _ & H & _). congruence.
  - destruct H3 as (_ & _ & _ & _ & Hno). eexists. right.
    assert (d_help s = HQueued) as Hh.
    { destruct (d_help s); cbn in H2; [| | |done|].
      - destruct H2 as (Hn & _). exfalso. clear -Hn Hl. revert Hl. induction (d_tr s) as [|e tr IH]; [done|]. destruct e; try done. cbn. destruct (decide _); [|done]. by rewrite Hn.
      - destruct H2 as (_ & Hwt & _). exfalso. clear -Hwt Hl. revert Hl Hwt. induction (d_tr s) as [|e tr IH]; [done|]. destruct e; done.
      - destruct H2 as (_ & _ & _ & H2). congruence.
      - destruct H2 as (_ & _ & H2 & _). congruence. }
    eexists. split; [cbn; rewrite Hh; reflexivity|]. cbn. rewrite Ea. cbn. rewrite H1, Hm. split; reflexivity.
  - eexists. left. cbn. rewrite Ea, H1, Hm. split; reflexivity.
  - destruct H3 as (_ & _ & H & _). congruence.
  - destruct H3 as (_ & H & _). congruence.
  - destruct H3 as (_ & H & _). congruence.
Qed.
(** And who waits is suspended unless it was answered. *)
Theorem C57_suspends s i k : dreach null s -> dwaits i k (d_tr s) -> late null i (d_tr s) = None -> ∃ s', dperform (DWatch i) s = Some s' ∧ d_tr s' = DESuspend i :: d_tr s.
Proof.
  intros Hr [Hw1 Hw2] Hl. pose proof (dreach_inv _ Hr) as [H1 H2 H3]. specialize (H3 i).
  destruct (d_aw s i) as [|k'|k'|k'|k'|b|] eqn:Ea; cbn in H3.
  - destruct H3; congruence.
  - cbn. rewrite Ea. eexists. split; [done|]. by destruct (d_help s).
  - destruct H3 as (_ & _ & H & _). congruence.
  - destruct H3 as (_ & _ & H & _). congruence.
  - destruct H3 as (_ & _ & H & _). congruence.
  - destruct H3 as (_ & H & _). congruence.
  - destruct H3 as (_ & H & _). congruence.
Qed.

(** ** C88 *)

Lemma dsteps_reach s s' : dreach null s -> dsteps s s' -> dreach null s'.
Proof. intros Hr. induction 1; [done|]. eapply dreach_S; [apply IHdsteps|]; done. Qed.
(** Violated: who is suspended after the others were notified is never resumed, although the call has finished. *)
Theorem C88_late_watcher_hangs_refuted s s' i k m : dreach null s -> dwaits i k (d_tr s) -> late null i (d_tr s) = Some true -> dsteps s s' -> DEReturn i m ∉ d_tr s'.
Proof.
  intros Hr [Hw1 Hw2] Hl Hst.
  assert (DEReturn i m ∉ d_tr s') as Hn0; [|done].
  assert (DEReturn i m ∉ d_tr s' ∧ (d_aw s' i = DLost k ∨ d_aw s' i = DDone)) as [? _]; [|done].
  induction Hst as [s|s s1 s2 x Hst IH Hp].
  - pose proof (dreach_inv _ Hr) as [H1 H2 H3]. specialize (H3 i). split.
    + clear -Hw2. induction (d_tr s) as [|e tr IH]; [by intros ?%elem_of_nil|]. cbn in Hw2. apply orb_false_iff in Hw2 as [Ha Hb]. intros [<-|?]%elem_of_cons; [|by apply IH].
      cbn in Ha. by rewrite bool_decide_eq_true_2 in Ha.
    + left. destruct (d_aw s i) as [|k'|k'|k'|k'|b|] eqn:Ea; cbn in H3.
      * destruct H3; congruence.
      * destruct H3 as (_ & _ & H & _). congruence.
      * destruct H3 as (_ & _ & H & _). congruence.
      * destruct H3 as (_ & _ & H & _). congruence.
      * destruct H3 as (H & _). congruence.
      * destruct H3 as (_ & H & _). congruence.
      * destruct H3 as (_ & H & _). congruence.
  - destruct (IH Hr Hw1 Hw2 Hl) as [Hn Ha]. clear IH.
    assert (∀ e, e ≠ DEReturn i m -> DEReturn i m ∉ e :: d_tr s1) as Hc. { intros e He [<-|?]%elem_of_cons; done. }
    assert (∀ j y, j ≠ i -> (if decide (i = j) then y else d_aw s1 i) = d_aw s1 i) as Hd. { intros j y Hne. by rewrite decide_False by congruence. }
    destruct x as [j k'|j|j|j|m'|]; cbn in Hp.
    + destruct (decide (j = i)) as [->|Hne]; [by destruct Ha as [Ha|Ha]; rewrite Ha in Hp|]. destruct (d_aw s1 j); try done. injection Hp as <-.
      assert (DEReturn i m ∉ DEAwait j k' :: d_tr s1) as Hc1 by (by apply Hc).
      destruct (d_reply s1) as [m'|]; [destruct (checks k')|]; cbn; rewrite Hd by done; (split; [|done]); try done.
      intros [?|?]%elem_of_cons; [congruence|done].
    + destruct (decide (j = i)) as [->|Hne]; [by destruct Ha as [Ha|Ha]; rewrite Ha in Hp|]. destruct (d_aw s1 j) as [|k''| | | | |]; try done. injection Hp as <-.
      destruct (d_help s1); cbn; rewrite Hd by done; (split; [by apply Hc|done]).
    + destruct (decide (j = i)) as [->|Hne]; [by destruct Ha as [Ha|Ha]; rewrite Ha in Hp|]. destruct (d_aw s1 j) as [| | |k''| |[]|]; try done.
      * destruct (d_reply s1); [|done]. injection Hp as <-. cbn. rewrite Hd by done. split; [|done]. apply Hc. congruence.
      * injection Hp as <-. cbn. rewrite Hd by done. split; [by apply Hc|done].
    + destruct (decide (j = i)) as [->|Hne].
      * destruct Ha as [Ha|Ha]; rewrite Ha in Hp; [|done]. injection Hp as <-. cbn. rewrite decide_True by done. split; [by apply Hc|by right].
      * destruct (d_aw s1 j) as [| |[]|[]|k''| |]; try done; injection Hp as <-; cbn; rewrite Hd by done; (split; [by apply Hc|done]).
    + destruct (d_reply s1); [done|]. injection Hp as <-. destruct (d_help s1); cbn; (split; [by apply Hc|]); try done. by destruct Ha as [-> | ->]; auto.
    + destruct (d_help s1); try done. injection Hp as <-. cbn. split; [by apply Hc|]. by destruct Ha as [-> | ->]; auto.
Qed.

(** ** C89 *)

(** Violated: QCoroDBusPendingCall::waitForFinished() suspends although the call has finished. *)
Theorem C89_wait_call_suspends_refuted s s' i : dreach null s -> dperform (DAwait i DCall) s = Some s' ->
  d_tr s' = DEAwait i DCall :: d_tr s ∧ ∃ s'', dperform (DWatch i) s' = Some s'' ∧ d_tr s'' = DESuspend i :: d_tr s'.
Proof.
  intros Hr Hp. cbn in Hp. destruct (d_aw s i); try done. injection Hp as <-. destruct (d_reply s); cbn; (split; [done|]);
    rewrite decide_True by done; (eexists; split; [reflexivity|]); by destruct (d_help s).
Qed.

(** ** C91 *)

(** Violated: if a coroutine is destroyed while it awaits a call or a reply, then it is resumed when the call finishes. *)
Theorem C91_destroyed_resumed_refuted s i : dreach null s -> dlost null i (d_tr s) = true -> notified (d_tr s) = true ->
  ∃ s', dperform (DDeliver i) s = Some s' ∧ d_tr s' = DEStale i :: d_tr s.
Proof.
  intros Hr Hl Hn. pose proof (dreach_inv _ Hr) as [H1 H2 H3]. specialize (H3 i). cbn. destruct (d_aw s i) as [|k'|k'|k'|k'|b|]; cbn in H3.
  - destruct H3 as (_ & _ & _ & H). congruence.
  - destruct H3 as (_ & _ & _ & H). congruence.
  - destruct H3 as (_ & _ & _ & H & _). congruence.
  - destruct H3 as (_ & _ & _ & H & _). congruence.
  - destruct H3 as (_ & _ & _ & H). congruence.
  - destruct H3 as (_ & _ & _ & ->). rewrite Hn. eauto.
  - destruct H3 as (_ & _ & H). congruence.
Qed.
End props.

(** If only one coroutine waits with a watcher, it is never late: with C57_suspends and C57_resumed, it is always resumed with the reply. *)
Lemma dtrace_ok null s t2 e t1 : dreach null s -> d_tr s = t2 ++ e :: t1 -> dstep_ok null t1 e.
Proof.
  intros Hr. revert t2 e t1. induction Hr as [|s s' x Hr IH Hp]; intros t2 e t1 Ht; [by destruct null, t2|].
  destruct (dstep_events _ _ _ _ Hr Hp) as [(e' & He & Hs)|(j & k & m' & _ & _ & He & Hm & Ha & Hb)]; rewrite He in Ht.
  - destruct t2; cbn in Ht; [by injection Ht as <- <-|]. injection Ht as _ Ht. by eapply IH.
  - destruct t2 as [|? [|? t2]]; cbn in Ht; [injection Ht as <- <-|by injection Ht as _ <- <-|injection Ht as _ _ Ht; by eapply IH].
    exists k. split; [|done]. split; [cbn; by rewrite decide_True|done].
Qed.
Theorem C57_single s i : dreach false s -> (∀ j, DESuspend j ∈ d_tr s -> j = i) -> late false i (d_tr s) ≠ Some true.
Proof.
  intros Hr Ha.
  assert (∀ t2 t1, d_tr s = t2 ++ t1 -> notified t1 = true -> watched t1 = true) as Hno.
  { intros t2 t1. revert t2. induction t1 as [|e t1 IH]; intros t2 Ht; [done|].
    assert (notified t1 = true -> watched t1 = true) as IH'. { apply (IH (t2 ++ [e])). by rewrite <- app_assoc. }
    destruct e; cbn; try done. intros _. by apply (dtrace_ok false s t2 DEEmit t1). }
  assert (∀ t2 t1, d_tr s = t2 ++ t1 -> late false i t1 = None -> watched t1 = false) as Hw.
  { intros t2 t1. revert t2. induction t1 as [|e t1 IH]; intros t2 Ht; [done|].
    assert (late false i t1 = None -> watched t1 = false) as IH'. { apply (IH (t2 ++ [e])). by rewrite <- app_assoc. }
    destruct e as [|j| | | | |]; cbn; try done. rewrite decide_True; [done|]. apply Ha. rewrite Ht. apply elem_of_app. right. left. }
  assert (∀ t2 t1, d_tr s = t2 ++ t1 -> late false i t1 ≠ Some true) as H; [|by apply (H [])].
  intros t2 t1. revert t2. induction t1 as [|e t1 IH]; intros t2 Ht; [done|].
  assert (late false i t1 ≠ Some true) as IH'. { apply (IH (t2 ++ [e])). by rewrite <- app_assoc. }
  destruct e as [|j| | | | |]; cbn; try done. destruct (decide (j = i)) as [->|]; [|done]. intros [= Hn].
  destruct (dtrace_ok _ _ _ _ _ Hr Ht) as [_ Hl].
  assert (d_tr s = (t2 ++ [DESuspend i]) ++ t1) as Ht' by (by rewrite <- app_assoc).
  pose proof (Hno _ _ Ht' Hn) as H. by rewrite (Hw _ _ Ht' Hl) in H.
Qed.

(** ** C90 *)

(** Violated: waitForFinished() of a default constructed call never returns. *)
Theorem C90_null_call_hangs_refuted s i m : dreach true s -> dasked i (d_tr s) = Some DCall -> DEReturn i m ∉ d_tr s.
Proof.
  intros Hr Ha Hin. apply elem_of_list_split in Hin as (t2 & t1 & Ht).
  assert (∀ s, dreach true s -> ∀ i, match d_aw s i with DWait _ | DPosted _ | DGone _ => False | _ => True end) as Hnever.
  { clear. intros s Hr i. pose proof (dreach_inv _ _ Hr) as [H1 H2 H3]. specialize (H3 i).
    assert (notified (d_tr s) = false ∧ ∀ i, late true i (d_tr s) ≠ Some false) as [Hn Hl].
    { split; [destruct (d_help s); cbn in H2; naive_solver|]. clear. intros i. induction (d_tr s) as [|e tr IH]; [done|]. destruct e; try done. cbn. by destruct (decide _). }
    assert (∀ i, dlost true i (d_tr s) = false) as Hd.
    { clear. intros i. induction (d_tr s) as [|e tr IH]; [done|]. destruct e as [| | |j|j| |]; try done; cbn.
      - destruct (decide (j = i)) as [->|]; [|done]. assert (late true i tr ≠ Some false). { clear. induction tr as [|e tr IH]; [done|]. destruct e; try done. cbn. by destruct (decide _). }
        destruct (dasked i tr) as [[]|]; try done. by destruct (late true i tr) as [[]|].
      - rewrite IH. by destruct (bool_decide _). }
    destruct (d_aw s i) as [|k'|k'|k'|k'|b|]; try done; cbn in H3.
    - destruct H3 as (_ & _ & H & _). by apply (Hl i).
    - destruct H3 as (_ & _ & H & _). by apply (Hl i).
    - destruct H3 as (_ & _ & H & _). by rewrite Hd in H. }
  revert t2 t1 Ht Ha. induction Hr as [|s s' x Hr IH Hp]; intros t2 t1 Ht Ha; [by destruct t2|].
  destruct (dstep_events _ _ _ _ Hr Hp) as [(e & He & Hs)|(j & k & m' & -> & Hk & He & Hm & Hx & Hb)].
  - rewrite He in Ht, Ha. destruct t2 as [|e' t2]; cbn in Ht.
    + injection Ht as -> <-. specialize (Hnever _ Hr). destruct x as [j k|j|j|j|m'|]; cbn in Hp.
      * destruct (d_aw s j); try done. injection Hp as <-. destruct (d_reply s); [destruct (checks k)|]; cbn in He; injection He; try done. intros H. by apply (f_equal length) in H; cbn in H; lia.
      * destruct (d_aw s j); try done. injection Hp as <-. by destruct (d_help s).
      * specialize (Hnever j). by destruct (d_aw s j) as [| | |k| |[]|].
      * destruct (d_aw s j) as [| |[]|[]|k''| |]; try done; by injection Hp as <-.
      * destruct (d_reply s); [done|]. injection Hp as <-. by destruct (d_help s).
      * destruct (d_help s); try done. by injection Hp as <-.
    + injection Ht as <- Ht. assert (dasked i (d_tr s) = Some DCall ∨ ∃ k, e = DEAwait i k) as [H|[k ->]].
      { destruct e as [j k| | | | | |]; auto. cbn in Ha. destruct (decide (j = i)) as [->|]; eauto. }
      * by eapply IH.
      * cbn in Hs. (* asked only once *)
        assert (∀ tr, dasked i tr = None -> dreach true s -> tr = d_tr s -> DEReturn i m ∉ tr) as Hno.
        { intros tr Hn _ -> Hin. apply elem_of_list_split in Hin as (u2 & u1 & Hu). destruct (C57_answers _ _ _ _ _ _ Hr Hu) as (k' & [Hk' _] & _).
          rewrite Hu in Hn. clear -Hn Hk'. induction u2 as [|e u2 IH]; cbn in Hn; [congruence|]. destruct e; auto. destruct (decide _); [done|auto]. }
        apply (Hno _ Hs Hr eq_refl). rewrite Ht. apply elem_of_app. right. left.
  - rewrite He in Ht, Ha. cbn in Ha. destruct t2 as [|? [|? t2]]; cbn in Ht; [|done|].
    + injection Ht as -> -> <-. rewrite decide_True in Ha by done. congruence.
    + injection Ht as _ _ Ht. destruct (decide (j = i)) as [->|]; [congruence|]. by eapply IH.
Qed.

(** ** The statements are not vacuous *)

Lemma dplay_reach null l s : dreach null s -> dreach null (dplay l s).
Proof. revert s. induction l as [|x l IH]; intros s Hr; cbn; [done|]. destruct (dperform x s) eqn:E; [|done]. apply IH. by eapply dreach_S. Qed.
Lemma dbus_reach null l : dreach null (dplay l (dbus0 null)).
Proof. apply dplay_reach. constructor. Qed.
(** Two coroutines wait, and are resumed; a third one does not suspend; the fourth one, in waitForFinished(), hangs. *)
Definition drun1 : list dact := [DAwait 0 DOp; DWatch 0; DAwait 1 DCall; DWatch 1; DFinish 5].
Example ex_C57_resumed : let s := dplay drun1 (dbus0 false) in dreach false s ∧ dwaits 0 DOp (d_tr s) ∧ dwaits 1 DCall (d_tr s) ∧ late false 1 (d_tr s) = Some false
  ∧ replied false (d_tr s) = Some 5 ∧ d_tr (dplay [DDeliver 0; DDeliver 1; DAwait 2 DReply] s) = [DEReturn 2 5; DEAwait 2 DReply; DEReturn 1 5; DEReturn 0 5] ++ d_tr s.
Proof. cbn zeta. split; [apply dbus_reach|]. by split_and!. Qed.
Example ex_C57_single : let s := dplay [DAwait 0 DOp; DFinish 5; DWatch 0] (dbus0 false) in dreach false s ∧ (∀ j, DESuspend j ∈ d_tr s -> j = 0) ∧
  d_tr (dplay [DEmit; DDeliver 0] s) = [DEReturn 0 5; DEEmit] ++ d_tr s.
Proof. cbn zeta. split; [apply dbus_reach|]. split; [|done]. intros j. change (DESuspend j ∈ [DESuspend 0; DEFinish 5; DEAwait 0 DOp] -> j = 0). rewrite !elem_of_cons, elem_of_nil. naive_solver. Qed.
Example ex_C88 : let s := dplay (drun1 ++ [DDeliver 0; DDeliver 1; DAwait 3 DCall; DWatch 3]) (dbus0 false) in dreach false s ∧ dwaits 3 DCall (d_tr s) ∧ late false 3 (d_tr s) = Some true
  ∧ replied false (d_tr s) = Some 5.
Proof. cbn zeta. split; [apply dbus_reach|]. by split_and!. Qed.
(** co_await on the same call by two coroutines: the reply is received between the check and the suspension of the second. *)
Example ex_C88_race : let s := dplay [DAwait 0 DOp; DWatch 0; DAwait 1 DOp; DFinish 5; DWatch 1] (dbus0 false) in dreach false s ∧ dwaits 1 DOp (d_tr s) ∧ late false 1 (d_tr s) = Some true.
Proof. cbn zeta. split; [apply dbus_reach|]. by split_and!. Qed.
Example ex_C89 : let s := dplay [DFinish 5; DAwait 0 DCall] (dbus0 false) in dreach false s ∧ replied false (d_tr s) = Some 5 ∧ d_tr s = [DEAwait 0 DCall; DEFinish 5].
Proof. cbn zeta. split; [apply dbus_reach|]. by split_and!. Qed.
Example ex_C90 : let s := dplay [DAwait 0 DCall; DWatch 0; DAwait 1 DReply] (dbus0 true) in dreach true s ∧ dasked 0 (d_tr s) = Some DCall ∧
  d_tr s = [DEReturn 1 nullreply; DEAwait 1 DReply; DESuspend 0; DEAwait 0 DCall].
Proof. cbn zeta. split; [apply dbus_reach|]. by split_and!. Qed.
Example ex_C91 : let s := dplay [DAwait 0 DOp; DWatch 0; DDestroy 0; DFinish 5] (dbus0 false) in dreach false s ∧ dlost false 0 (d_tr s) = true ∧ notified (d_tr s) = true.
Proof. cbn zeta. split; [apply dbus_reach|]. by split_and!. Qed.

Print Assumptions C57_answers.
Print Assumptions C57_no_suspend.
Print Assumptions C57_resumed.
Print Assumptions C57_suspends.
Print Assumptions C57_single.
Print Assumptions C88_late_watcher_hangs_refuted.
Print Assumptions C89_wait_call_suspends_refuted.
Print Assumptions C90_null_call_hangs_refuted.
Print Assumptions C91_destroyed_resumed_refuted.
