(** * C107: when QmlTask is defined, and what its callbacks get, exactly (see C92-C94 for the violations). *)
From stdpp Require Import list option.
From Verif Require Import QmlModel QmlSpec PropsQml.

Lemma broken_run c v s : broken (q_tr (run c v s)) = broken (q_tr s).
Proof. unfold run. destruct (c_kind c); [done|]. cbn. by destruct (q_dead s l). Qed.
Lemma broken_attach p k s : broken (q_tr (attach p k s)) = broken (q_tr s).
Proof. unfold attach. cbn. destruct (q_task s p); [done|done|by rewrite broken_run|done]. Qed.
(** then() is undefined iff the QmlTask has been copied and a copy still exists. *)
Theorem C107_then_undefined_iff s s' h p ca : qreach s -> broken (q_tr s) = false -> lookup_handle h (holders (q_tr s)) = Some p ->
  qperform (AQThen h ca) s = Some s' -> broken (q_tr s') = true <-> users_in p (holders (q_tr s)) ≠ 1.
Proof.
  intros Hr Hb Hh Hp. pose proof (qreach_inv s Hr) as Hi. unfold qperform, private, users in Hp. rewrite (x_bad _ Hi), Hb, (x_hand _ Hi), Hh in Hp. injection Hp as <-.
  destruct (decide _) as [E|E]; [|done]. split; [|done]. intros H. exfalso. destruct (q_task s p); [|destruct ca..]; rewrite ?broken_attach in H; cbn in H; congruence.
Qed.
(** await(): the same, or there is no task (a default constructed QmlTask). *)
Theorem C107_await_undefined_iff s s' h p iv : qreach s -> broken (q_tr s) = false -> lookup_handle h (holders (q_tr s)) = Some p ->
  qperform (AQAwait h iv) s = Some s' -> broken (q_tr s') = true <-> users_in p (holders (q_tr s)) ≠ 1 ∨ has_task p (q_tr s) = false.
Proof.
  intros Hr Hb Hh Hp. pose proof (qreach_inv s Hr) as Hi. pose proof (task_none s p Hi) as Ht. unfold qperform, private, users in Hp. rewrite (x_bad _ Hi), Hb, (x_hand _ Hi), Hh in Hp. injection Hp as <-.
  set (s1 := match iv with Some _ => _ | None => _ end). assert (q_hand s1 = holders (q_tr s) ∧ q_task s1 = q_task s ∧ broken (q_tr s1) = false) as (-> & E2 & E3) by (subst s1; destruct iv; cbn; split_and!; try done; by rewrite (x_hand _ Hi)).
  rewrite E2. destruct (decide _) as [E|E]; [|split; [by left|done]].
  destruct (q_task s p) eqn:Ep; (split; [|intros [?|Hn]; [done|]]);
    try (intros H; exfalso; rewrite broken_attach in H; congruence); try (by right; apply Ht); try done; try (apply Ht in Hn; done).
Qed.
(** Nothing else is ever undefined. *)
Theorem C107_else_defined s s' x : qreach s -> broken (q_tr s) = false -> qperform x s = Some s' -> broken (q_tr s') = true ->
  ∃ h p, lookup_handle h (holders (q_tr s)) = Some p ∧ ((∃ ca, x = AQThen h ca) ∨ ∃ iv, x = AQAwait h iv).
Proof.
  intros Hr Hb Hp Hx. pose proof (qreach_inv s Hr) as Hi. unfold qperform in Hp. rewrite (x_bad _ Hi), Hb in Hp. unfold private in Hp. rewrite ?(x_hand _ Hi) in Hp. destruct x as [h|h|h h'|h|h ca|h iv|p v|p|p|l].
  - destruct (lookup_handle h _); [done|]. injection Hp as <-. cbn in Hx. congruence.
  - destruct (lookup_handle h _); [done|]. injection Hp as <-. cbn in Hx. congruence.
  - destruct (lookup_handle h _); [done|]. destruct (lookup_handle h' _); [|done]. injection Hp as <-. cbn in Hx. congruence.
  - injection Hp as <-. cbn in Hx. congruence.
  - destruct (lookup_handle h _) eqn:E; [|done]. eauto 6.
  - destruct (lookup_handle h _) eqn:E; [|done]. eauto 6.
  - destruct (q_task s p) as [|[|c cs]| |]; try done; injection Hp as <-; rewrite ?broken_run in Hx; cbn in Hx; congruence.
  - destruct (q_task s p) as [|cs| |]; try done; injection Hp as <-; cbn in Hx; congruence.
  - destruct (q_task s p) as [| |v [|c cs]|]; try done; injection Hp as <-; rewrite broken_run in Hx; cbn in Hx; congruence.
  - destruct (decide _); [|done]. injection Hp as <-. cbn in Hx. congruence.
Qed.
(** What a callback is passed: the result iff it is the first callback of the task to run, else a null value. *)
Theorem C107_callback_value s post pre c v : qreach s -> q_tr s = post ++ QECall c v :: pre ->
  ∃ p k r, owner c pre = Some (p, k) ∧ outcome p pre = Some (Some r) ∧ v = if fresh p pre then Some r else None.
Proof. exact (C59_call s post pre c v). Qed.
Print Assumptions C107_then_undefined_iff.
Print Assumptions C107_await_undefined_iff.
Print Assumptions C107_else_defined.
Print Assumptions C107_callback_value.
Example ex_C107 : let s := qplay [AQCreate 0; AQCopy 1 0; AQDefault 2] qml0 in qreach s ∧ broken (q_tr s) = false ∧
  lookup_handle 1 (holders (q_tr s)) = Some 0 ∧ users_in 0 (holders (q_tr s)) = 2 ∧ lookup_handle 2 (holders (q_tr s)) = Some 1 ∧ users_in 1 (holders (q_tr s)) = 1 ∧ has_task 1 (q_tr s) = false ∧
  broken (q_tr (qplay [AQDrop 0; AQThen 1 true] s)) = false.
Proof. cbn zeta. split; [apply qplayed|]. split_and!; vm_compute; reflexivity. Qed.
