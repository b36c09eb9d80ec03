(** * C106: which awaits of a D-Bus call end, exactly (see C88-C91 for the violations). *)
From stdpp Require Import list option.
From Verif Require Import DBusModel DBusSpec PropsDBus.

(** An await that is suspended can still be resumed with the reply iff it was not late; then the event loop alone resumes it. *)
Theorem C106_ends_iff null s i k m b : dreach null s -> dwaits i k (d_tr s) -> late null i (d_tr s) = Some b -> replied null (d_tr s) = Some m ->
  (∃ s', dsteps s s' ∧ DEReturn i m ∈ d_tr s') <-> b = false.
Proof.
  intros Hr Hw Hl Hm. split.
  - intros (s' & Hs & Hin). destruct b; [|done]. by destruct (C88_late_watcher_hangs_refuted null s s' i k m Hr Hw Hl Hs).
  - intros ->. destruct (C57_resumed null s i k m Hr Hw Hl Hm) as (s' & [[Hp He]|(s1 & Hp1 & Hp2 & He)]).
    + exists s'. split; [eapply dsteps_S; [apply dsteps_0|done]|]. rewrite He. left.
    + exists s'. split; [eapply dsteps_S; [eapply dsteps_S; [apply dsteps_0|done]|done]|]. rewrite He. left.
Qed.
(** Late is who is suspended after the reply has been received and another watcher existed before it; never the first one, and never who is suspended before the reply. *)
Lemma late_app null s i t2 t1 : dreach null s -> d_tr s = t2 ++ DESuspend i :: t1 -> late null i (d_tr s) = Some (null || notified t1).
Proof.
  intros Hr He.
  assert (∀ u2 u1, d_tr s = u2 ++ DESuspend i :: u1 -> late null i u1 = None) as H1. { intros u2 u1 Hu. by apply (dtrace_ok null s u2 _ u1 Hr Hu). }
  rewrite He. assert (∀ u3 u2, d_tr s = u3 ++ u2 ++ DESuspend i :: t1 -> late null i (u2 ++ DESuspend i :: t1) = Some (null || notified t1)) as H; [|by apply (H [])].
  intros u3 u2. revert u3. induction u2 as [|e u2 IH]; intros u3 Hu; cbn; [by rewrite decide_True|].
  assert (late null i (u2 ++ DESuspend i :: t1) = Some (null || notified t1)) as IH'. { apply (IH (u3 ++ [e])). by rewrite <- app_assoc. }
  destruct e as [|j| | | | |]; try done. destruct (decide (j = i)) as [->|]; [|done]. exfalso. pose proof (H1 u3 (u2 ++ DESuspend i :: t1) Hu) as H. congruence.
Qed.
Lemma notified_spec null s t2 t1 : dreach null s -> d_tr s = t2 ++ t1 -> notified t1 = true -> watched t1 = true ∧ replied null t1 ≠ None.
Proof.
  intros Hr. revert t2. induction t1 as [|e t1 IH]; intros t2 Ht; [done|].
  assert (notified t1 = true -> watched t1 = true ∧ replied null t1 ≠ None) as IH'. { apply (IH (t2 ++ [e])). by rewrite <- app_assoc. }
  pose proof (dtrace_ok null s t2 e t1 Hr Ht) as He. destruct e; cbn; try done.
  - intros H. split; [done|]. by apply IH'.
Qed.
Theorem C106_late_only_if s i t2 t1 : dreach false s -> d_tr s = t2 ++ DESuspend i :: t1 -> late false i (d_tr s) = Some true ->
  replied false t1 ≠ None ∧ ∃ j, DESuspend j ∈ t1.
Proof.
  intros Hr He Hl. rewrite (late_app false s i t2 t1 Hr He) in Hl. injection Hl as Hn.
  destruct (notified_spec false s (t2 ++ [DESuspend i]) t1 Hr) as [Hw Hp]; [by rewrite <- app_assoc|done|]. split; [done|].
  clear -Hw. induction t1 as [|e t1 IH]; [done|]. destruct e as [|j| | | | |]; [..|]; try (destruct IH as [j' ?]; [done|]; exists j'; by right). exists j. left.
Qed.
(** A destroyed coroutine is resumed iff it was destroyed in a co_await that was not late, once the watchers are notified. *)
Theorem C106_stale_iff null s i : dreach null s ->
  (∃ s', dperform (DDeliver i) s = Some s' ∧ d_tr s' = DEStale i :: d_tr s) <-> dlost null i (d_tr s) = true ∧ notified (d_tr s) = true.
Proof.
  intros Hr. split; [|intros [? ?]; by apply (C91_destroyed_resumed_refuted null)]. intros (s' & Hp & He). pose proof (dreach_inv null s Hr) as [H1 H2 H3]. specialize (H3 i). cbn in Hp.
  destruct (d_aw s i) as [|k|k|k|k|[]|]; try done.
  - destruct (d_reply s); [|done]. injection Hp as <-. done.
  - cbn in H3. destruct H3 as (_ & _ & H & <-). done.
Qed.
Lemma lost_answered null i tr : dlost null i tr = true -> danswered i tr = true.
Proof.
  induction tr as [|e tr IH]; [done|]. destruct e as [| | |j|j| |]; cbn; try (by intros ?%IH).
  - intros ?%IH. by rewrite H, orb_true_r.
  - destruct (decide (j = i)) as [->|]; [by rewrite bool_decide_eq_true_2|]. intros ?%IH. by rewrite H, orb_true_r.
  - intros [_ ?%IH]%andb_true_iff. done.
Qed.
(** waitForFinished() can be destroyed at any time. *)
Theorem C106_wait_can_be_destroyed null s s' i k : dreach null s -> dwaits i k (d_tr s) -> k ≠ DOp -> dperform (DDestroy i) s = Some s' ->
  ∀ s'', dsteps s' s'' -> DEStale i ∉ d_tr s''.
Proof.
  intros Hr Hw Hk Hp s'' Hs. destruct Hw as [Hw1 Hw2].
  assert (d_aw s' i = DDone ∧ DEStale i ∉ d_tr s') as [Hd Hn].
  { pose proof (dreach_inv null s Hr) as [H1 H2 H3]. specialize (H3 i). cbn in Hp.
    assert (DEStale i ∉ d_tr s) as Hno.
    { intros Hin. apply elem_of_list_split in Hin as (t2 & t1 & Ht). pose proof (dtrace_ok null s t2 _ t1 Hr Ht) as Hx. cbn in Hx.
      assert (danswered i t1 = true) as Ha by (by apply (lost_answered null)). rewrite Ht in Hw2. clear -Ha Hw2. induction t2 as [|e t2 IH]; cbn in Hw2; [congruence|]. apply orb_false_iff in Hw2 as [_ ?]. auto. }
    destruct (d_aw s i) as [|k'|k'|k'|k'|b|]; try done; cbn in H3;
      try (destruct H3 as (Hk' & _); assert (k' = k) as -> by congruence; destruct k; try done; injection Hp as <-; cbn; rewrite decide_True by done; (split; [done|]); intros [?|?]%elem_of_cons; done). }
  assert (d_aw s'' i = DDone ∧ DEStale i ∉ d_tr s'') as [_ ?]; [|done].
  induction Hs as [s'|s' s1 s2 x Hs IH Hx]; [done|]. destruct (IH Hp Hd Hn) as [Hd1 Hn1]. clear -Hx Hd1 Hn1.
  assert (∀ e tr, DEStale i ∉ tr -> e ≠ DEStale i -> DEStale i ∉ e :: tr) as Hc. { intros e tr H1 H2 [?|?]%elem_of_cons; congruence. }
  destruct x as [j k|j|j|j|m|]; cbn in Hx.
  - destruct (decide (j = i)) as [->|Hne]; [by rewrite Hd1 in Hx|]. destruct (d_aw s1 j); try done. injection Hx as <-.
    destruct (d_reply s1); [destruct (checks k)|]; cbn; rewrite decide_False by congruence; (split; [done|]); repeat apply Hc; done.
  - destruct (decide (j = i)) as [->|Hne]; [by rewrite Hd1 in Hx|]. destruct (d_aw s1 j); try done. injection Hx as <-.
    destruct (d_help s1); cbn; rewrite decide_False by congruence; (split; [done|]); by apply Hc.
  - destruct (decide (j = i)) as [->|Hne]; [by rewrite Hd1 in Hx|]. destruct (d_aw s1 j) as [| | |k| |[]|]; try done; [destruct (d_reply s1); [|done]|]; injection Hx as <-; cbn; rewrite decide_False by congruence; (split; [done|]); apply Hc; congruence.
  - destruct (decide (j = i)) as [->|Hne]; [by rewrite Hd1 in Hx|]. destruct (d_aw s1 j) as [| |[]|[]|k''| |]; try done; injection Hx as <-; cbn; rewrite decide_False by congruence; (split; [done|]); by apply Hc.
  - destruct (d_reply s1); [done|]. injection Hx as <-. destruct (d_help s1); cbn; (split; [|by apply Hc]); rewrite ?Hd1; done.
  - destruct (d_help s1); try done. injection Hx as <-. cbn. rewrite Hd1. split; [done|by apply Hc].
Qed.
Print Assumptions C106_ends_iff.
Print Assumptions C106_late_only_if.
Print Assumptions C106_stale_iff.
Print Assumptions C106_wait_can_be_destroyed.
Example ex_C106 : let s := dplay [DAwait 0 DOp; DWatch 0; DAwait 1 DOp; DFinish 5; DWatch 1; DAwait 2 DCall; DWatch 2; DDestroy 2] (dbus0 false) in dreach false s ∧
  dwaits 0 DOp (d_tr s) ∧ late false 0 (d_tr s) = Some false ∧ dwaits 1 DOp (d_tr s) ∧ late false 1 (d_tr s) = Some true ∧ replied false (d_tr s) = Some 5 ∧
  d_tr s = [DEDestroy 2; DESuspend 2; DEAwait 2 DCall; DESuspend 1; DEFinish 5; DEAwait 1 DOp; DESuspend 0; DEAwait 0 DOp].
Proof. cbn zeta. split; [apply dbus_reach|]. by split_and!. Qed.
