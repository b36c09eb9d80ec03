(** * Properties of sleepFor() and sleepUntil(): C44, C80, C81. The model is SleepModel.v.

    Times and durations are in units; [u] units are a millisecond. *)
From stdpp Require Import list option.
From Coq Require Import ZArith Lia.
From Verif Require Import SleepModel.
Open Scope Z_scope.

Section props.
Context (u : Z) (Hu : 0 < u).

Lemma to_int_id n : - 2 ^ 31 <= n < 2 ^ 31 -> to_int n = n.
Proof. intros H. unfold to_int. rewrite Z.mod_small; lia. Qed.
Lemma to_int_range n : - 2 ^ 31 <= to_int n < 2 ^ 31.
Proof. unfold to_int. pose proof (Z.mod_pos_bound (n + 2 ^ 31) (2 ^ 32) ltac:(lia)). lia. Qed.
(** Every way from co_await to its return. *)
Definition dl_of (e : sev) : Z :=
  let ms d now := let m := to_int (to_ms u d) in if m <? 0 then now else now + m * u in
  match e with VFor d now => ms d now | VUntil _ w now => ms (w - now) now | VAwake now => now end.
Lemma sleep_inv t0 s : sreach u t0 s ->
  match s_pos s with SSleep dl => ∃ e tr, s_tr s = e :: tr ∧ dl = dl_of e | SRun => True end ∧
  ∀ t2 now t1, s_tr s = t2 ++ VAwake now :: t1 -> ∃ e tr, t1 = e :: tr ∧ dl_of e <= now ∧ match e with VAwake _ => False | _ => True end.
Proof.
  assert (∀ d e s s', s_tr s = e :: s_tr s' -> dl_of e = (let m := to_int (to_ms u d) in if m <? 0 then s_now s else s_now s + m * u) ->
    match e with VAwake _ => False | _ => True end ->
    (∀ t2 now t1, s_tr s' = t2 ++ VAwake now :: t1 -> ∃ e tr, t1 = e :: tr ∧ dl_of e <= now ∧ match e with VAwake _ => False | _ => True end) ->
    match s_pos (sleep_for u d s) with SSleep dl => ∃ e tr, s_tr (sleep_for u d s) = e :: tr ∧ dl = dl_of e | SRun => True end ∧
    ∀ t2 now t1, s_tr (sleep_for u d s) = t2 ++ VAwake now :: t1 -> ∃ e tr, t1 = e :: tr ∧ dl_of e <= now ∧ match e with VAwake _ => False | _ => True end) as Hfor.
  { intros d e s1 s' Ht He Hne IH. unfold sleep_for. cbv zeta in *. destruct (_ <? 0) eqn:E; cbn.
    - split; [done|]. intros [|x t2] now t1; cbn; rewrite Ht.
      + intros [= <- <-]. exists e, (s_tr s'). split; [done|]. split; [lia|done].
      + intros [= <- Hx]. destruct t2 as [|y t2]; [cbn in Hx; injection Hx as He1 _; by rewrite He1 in Hne|]. cbn in Hx. injection Hx as <- Hx. by eapply IH.
    - split; [exists e, (s_tr s'); by rewrite He|]. intros [|x t2] now t1; rewrite Ht; cbn.
      + intros [= He1 _]. by rewrite He1 in Hne.
      + intros [= <- Hx]. by eapply IH. }
  induction 1 as [|s s' a Hr [IH1 IH2] Hp]; [by split; [|intros [|??]]|]. destruct a; cbn in Hp.
  - destruct (s_pos s) eqn:Ep; [|done]. injection Hp as <-. by eapply (Hfor d (VFor d (s_now s)) _ s).
  - destruct (s_pos s) eqn:Ep; [|done]. injection Hp as <-. by eapply (Hfor _ (VUntil off w (s_now s)) _ s).
  - injection Hp as <-. done.
  - destruct (s_pos s) as [|dl] eqn:Ep; [done|]. destruct (dl <=? s_now s) eqn:Hle; [|done]. injection Hp as <-. cbn. split; [done|].
    destruct IH1 as (e & tr & Ht & ->). intros [|x t2] now t1; cbn; [|intros [= <- Hx]; by eapply IH2].
    intros [= <- <-]. exists e, tr. split; [done|]. split; [lia|]. destruct e; try done.
    destruct (IH2 [] _ _ Ht) as (e' & tr' & -> & _). clear -Hr Ep Ht. exfalso.
    (* a sleeping coroutine's last event is not its awakening *)
    revert Ep Ht. induction Hr as [|s s' a Hr IH Hp]; [done|]. intros Ep Ht. destruct a; cbn in Hp.
    + destruct (s_pos s); [|done]. injection Hp as <-. unfold sleep_for in Ep, Ht. cbn in *. destruct (_ <? 0); cbn in *; [done|]. by injection Ht.
    + destruct (s_pos s); [|done]. injection Hp as <-. unfold sleep_until, sleep_for in Ep, Ht. cbn in *. destruct (_ <? 0); cbn in *; [done|]. by injection Ht.
    + injection Hp as <-. by apply IH.
    + destruct (s_pos s); [done|]. destruct (_ <=? _); [|done]. by injection Hp as <-.
Qed.

Lemma ms_bounds d : 0 <= d -> d - u < to_ms u d * u <= d.
Proof. intros Hd. unfold to_ms. rewrite Z.quot_div_nonneg by lia. pose proof (Z.mul_div_le d u Hu). pose proof (Z.mul_succ_div_gt d u Hu). nia. Qed.

(** ** C44 *)

(** sleepFor(d) does not return earlier than [d] later, if [d] is a whole number of milliseconds that fits into an int... *)
Theorem C44_not_early_partial t0 s t2 d now now' t1 :
  sreach u t0 s -> s_tr s = t2 ++ VAwake now' :: VFor d now :: t1 -> (u | d) -> d < 2 ^ 31 * u -> now + d <= now' ∨ d < 0.
Proof.
  intros Hr Ht [m Hm] Hd. destruct (sleep_inv _ _ Hr) as [_ H]. destruct (H _ _ _ Ht) as (e & tr & [= <- <-] & Hle & _). cbn in Hle.
  destruct (decide (d < 0)) as [?|Hnn]; [by right|left]. subst d.
  assert (0 <= m < 2 ^ 31) as Hmr by nia.
  assert (to_ms u (m * u) = m) as Hms by (unfold to_ms; by rewrite Z.quot_mul by lia).
  rewrite Hms, to_int_id in Hle by lia. destruct (m <? 0) eqn:E; lia.
Qed.
(** ... in general, less than a millisecond earlier. *)
Theorem C44_at_most_1ms_early_partial t0 s t2 d now now' t1 :
  sreach u t0 s -> s_tr s = t2 ++ VAwake now' :: VFor d now :: t1 -> 0 <= d < 2 ^ 31 * u -> now + d - u < now'.
Proof.
  intros Hr Ht Hd. destruct (sleep_inv _ _ Hr) as [_ H]. destruct (H _ _ _ Ht) as (e & tr & [= <- <-] & Hle & _). cbn in Hle.
  destruct (ms_bounds d) as [H1 H2]; [lia|].
  assert (0 <= to_ms u d < 2 ^ 31) as Hmr by nia.
  rewrite to_int_id in Hle by lia. destruct (to_ms u d <? 0) eqn:E; lia.
Qed.
(** It returns as soon as that time is over. *)
Theorem C44_on_time d s : s_pos s = SRun -> 0 <= d < 2 ^ 31 * u ->
  ∀ n, s_now s + d <= s_now s + Zpos n ->
  s_tr (splay u [SFor d; SPass n; STimeout] s) = VAwake (s_now s + Zpos n) :: VFor d (s_now s) :: s_tr s.
Proof.
  intros Hs Hd n Hn. cbn. rewrite Hs. cbn. unfold sleep_for. destruct (ms_bounds d) as [H1 H2]; [lia|].
  assert (0 <= to_ms u d < 2 ^ 31) as Hmr by nia.
  rewrite to_int_id by lia. destruct (to_ms u d <? 0) eqn:E; [lia|]. cbn. destruct (_ <=? _) eqn:E2; [done|]. apply Z.leb_gt in E2. lia.
Qed.

(** sleepUntil(w) with std::chrono::steady_clock (offset 0) likewise. *)
Theorem C44_until_steady t0 s t2 w now now' t1 :
  sreach u t0 s -> s_tr s = t2 ++ VAwake now' :: VUntil 0 w now :: t1 -> w - now < 2 ^ 31 * u -> w - u < reading 0 now' ∨ w < now.
Proof.
  intros Hr Ht Hd. destruct (sleep_inv _ _ Hr) as [_ H]. destruct (H _ _ _ Ht) as (e & tr & [= <- <-] & Hle & _). cbn in Hle.
  destruct (decide (w < now)) as [?|Hnn]; [by right|left]. unfold reading.
  destruct (ms_bounds (w - now)) as [H1 H2]; [lia|].
  assert (0 <= to_ms u (w - now) < 2 ^ 31) as Hmr by nia.
  rewrite to_int_id in Hle by lia. destruct (_ <? 0) eqn:E; lia.
Qed.
Theorem C44_until_on_time w s : s_pos s = SRun -> 0 <= w - s_now s < 2 ^ 31 * u ->
  ∀ n, w <= s_now s + Zpos n ->
  s_tr (splay u [SUntil 0 w; SPass n; STimeout] s) = VAwake (s_now s + Zpos n) :: VUntil 0 w (s_now s) :: s_tr s.
Proof.
  intros Hs Hd n Hn. cbn. rewrite Hs. cbn. unfold sleep_until, sleep_for. cbn [s_now s_tr]. destruct (ms_bounds (w - s_now s)) as [H1 H2]; [lia|].
  assert (0 <= to_ms u (w - s_now s) < 2 ^ 31) as Hmr by nia.
  rewrite to_int_id by lia. destruct (to_ms u (w - s_now s) <? 0) eqn:E; [lia|]. cbn. destruct (_ <=? _) eqn:E2; [done|]. apply Z.leb_gt in E2. lia.
Qed.

(** Violated: whenever [d] is not a whole number of milliseconds, sleepFor(d) can return too early. *)
Theorem C44_sleep_for_early_refuted t0 d : 0 < d < 2 ^ 31 * u -> ¬ (u | d) ->
  ∃ s now', sreach u t0 s ∧ s_tr s = [VAwake now'; VFor d t0] ∧ now' < t0 + d.
Proof.
  intros Hd Hn. set (m := to_ms u d).
  destruct (ms_bounds d) as [H1 H2]; [lia|]. fold m in H1, H2.
  assert (m * u ≠ d) as Hne by (intros He; apply Hn; by exists m).
  assert (0 <= m < 2 ^ 31) as Hmr by nia.
  assert (sleep_for u d (Sst t0 SRun [VFor d t0]) = Sst t0 (SSleep (t0 + m * u)) [VFor d t0]) as Hs.
  { unfold sleep_for. fold m. rewrite to_int_id by lia. destruct (m <? 0) eqn:E; [lia|done]. }
  assert (sreach u t0 (Sst t0 (SSleep (t0 + m * u)) [VFor d t0])) as Hr.
  { eapply (sreach_S _ _ _ _ (SFor d)); [apply sreach_0|]. cbn. by rewrite Hs. }
  destruct (m * u) as [|p|p] eqn:Em; [|exists (Sst (t0 + Zpos p) SRun [VAwake (t0 + Zpos p); VFor d t0]), (t0 + Zpos p)|lia].
  - exists (Sst t0 SRun [VAwake t0; VFor d t0]), t0. split; [|split; [done|lia]].
    eapply (sreach_S _ _ _ _ STimeout); [exact Hr|]. cbn. destruct (_ <=? _) eqn:E; [done|]. apply Z.leb_gt in E. lia.
  - split; [|split; [done|lia]].
    eapply (sreach_S _ _ _ _ STimeout); [eapply (sreach_S _ _ _ _ (SPass p)); [exact Hr|done]|]. cbn. by rewrite Z.leb_refl.
Qed.

(** ** C80 *)

(** Violated: on a clock that is ahead of the steady clock by [off] (as std::chrono::system_clock is), sleepUntil(w) returns only when that
    clock reads at least [w + off], up to a millisecond. If the clock is behind, it can return that much too early. *)
Theorem C80_other_clock_late_refuted t0 s t2 off w now now' t1 :
  sreach u t0 s -> s_tr s = t2 ++ VAwake now' :: VUntil off w now :: t1 -> 0 <= w - now < 2 ^ 31 * u -> w + off - u < reading off now'.
Proof.
  intros Hr Ht Hd. destruct (sleep_inv _ _ Hr) as [_ H]. destruct (H _ _ _ Ht) as (e & tr & [= <- <-] & Hle & _). cbn in Hle. unfold reading.
  destruct (ms_bounds (w - now)) as [H1 H2]; [lia|].
  assert (0 <= to_ms u (w - now) < 2 ^ 31) as Hmr by nia.
  rewrite to_int_id in Hle by lia. destruct (_ <? 0) eqn:E; lia.
Qed.

(** ** C81 *)

(** Violated: a sleep of 2^31 to 2^32 - 1 milliseconds (25 to 49 days) returns at once. *)
Theorem C81_long_sleep_refuted d s : s_pos s = SRun -> 2 ^ 31 * u <= d < 2 ^ 32 * u ->
  ∃ s', sperform u (SFor d) s = Some s' ∧ s_tr s' = VAwake (s_now s) :: VFor d (s_now s) :: s_tr s.
Proof.
  intros Hs Hd. cbn. rewrite Hs. eexists. split; [done|]. unfold sleep_for. cbn.
  assert (2 ^ 31 <= to_ms u d < 2 ^ 32) as Hm. { destruct (ms_bounds d) as [H1 H2]; [lia|]. nia. }
  assert (to_int (to_ms u d) = to_ms u d - 2 ^ 32) as Hi.
  { unfold to_int. rewrite <- (Z.mod_unique (to_ms u d + 2 ^ 31) (2 ^ 32) 1 (to_ms u d + 2 ^ 31 - 2 ^ 32)); lia. }
  rewrite Hi. destruct (_ <? 0) eqn:E; [done|]. apply Z.ltb_ge in E. lia.
Qed.
End props.
Print Assumptions C44_not_early_partial.
Print Assumptions C44_at_most_1ms_early_partial.
Print Assumptions C44_on_time.
Print Assumptions C44_until_steady.
Print Assumptions C44_sleep_for_early_refuted.
Print Assumptions C80_other_clock_late_refuted.
Print Assumptions C81_long_sleep_refuted.

(** ** Concrete histories (units of a microsecond) *)
Lemma splay_reach u t0 l s : sreach u t0 s -> sreach u t0 (splay u l s).
Proof. revert s. induction l as [|a l IH]; intros s Hs; [done|]. cbn. destruct (sperform u a s) eqn:E; [|done]. apply IH. by eapply sreach_S. Qed.
(** 2 ms, then 1.5 ms, which takes only 1 ms. *)
Definition run44 : sst := splay 1000 [SFor 2000; SPass 2000; STimeout; SFor 1500; SPass 1000; STimeout] (Sst 50 SRun []).
Example ex44 : sreach 1000 50 run44 ∧ s_tr run44 = [VAwake 3050; VFor 1500 2050; VAwake 2050; VFor 2000 50].
Proof. split; [apply splay_reach, sreach_0|]. done. Qed.
(** The steady clock reads 5 ms, the other one 105 ms. sleepUntil(108 ms) on that clock takes 103 ms: the clock reads 208 ms then. *)
Definition run80 : sst := splay 1000 [SUntil 100000 108000; SPass 3000; SPass 100000; STimeout] (Sst 5000 SRun []).
Example ex80 : sreach 1000 5000 run80 ∧ s_tr run80 = [VAwake 108000; VUntil 100000 108000 5000] ∧ reading 100000 108000 = 208000.
Proof. split; [apply splay_reach, sreach_0|]. done. Qed.
(** The other way round: a clock 100 ms behind; sleepUntil(3 ms) should take 98 ms and returns at once. *)
Definition run80b : sst := splay 1000 [SUntil (-100000) 3000] (Sst 5000 SRun []).
Example ex80b : s_tr run80b = [VAwake 5000; VUntil (-100000) 3000 5000] ∧ reading (-100000) 5000 = -95000.
Proof. done. Qed.
Print Assumptions C44_until_on_time.
