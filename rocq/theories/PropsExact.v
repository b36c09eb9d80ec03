(** * Property theorems C103, C104: what is true of the violated C35/C63 and C44, exactly.
    Vocabulary as in PropsSignal.v and PropsSleep.v. *)
From stdpp Require Import list option.
From Coq Require Import ZArith Lia.
From Verif Require Import TaskRun.
From Verif Require Import QtModel QtSpec QtInv QtAwait QtReach QtWrap QtTrace PropsSignal SleepModel PropsSleep.
Close Scope Z_scope.

(** ** C103: awaiting a signal with a timeout [n] *)

(** While the object exists: once [n] has passed, the co_await can end, at the latest with nothing. *)
Theorem C103_ends_while_object_exists {D S P O A} denv (s0 s : @wstate D S P O A) m n k l :
  reach denv s0 -> wubs s0 = None -> noleak s0 -> walive s0 = true ->
  wco s0 = CRun (qCoro_timeout m (Some n) k) -> exec denv s0 s ->
  wtrace s = l ++ TSusp (FromDev m) (Some n) :: wtrace s0 -> quiet l -> step s = Idle -> TDestroy ∉ l -> n ≤ elapsed l ->
  ∃ s2, exec denv s s2 ∧ wco s2 = CRun (k None).
Proof. exact (C35_ends_partial denv s0 s m n k l). Qed.
Print Assumptions C103_ends_while_object_exists.

(** After the object was destroyed without having emitted the signal: it never ends and nothing undefined happens. *)
Theorem C103_never_ends_once_destroyed {D S P O A} denv (s0 s : @wstate D S P O A) m to k l :
  reach denv s0 -> wubs s0 = None -> noleak s0 -> walive s0 = true ->
  wco s0 = CRun (qCoro_timeout m to k) -> exec denv s0 s ->
  wtrace s = l ++ TSusp (FromDev m) to :: wtrace s0 -> quiet l -> TDestroy ∈ l -> emissions (FromDev m) l = [] -> step s = Idle ->
  ∀ s', exec denv s s' -> wubs s' = None ∧ ∃ l', wtrace s' = l' ++ wtrace s ∧ quiet l'.
Proof. exact (C35_destroyed_hangs denv s0 s m to k l). Qed.
Print Assumptions C103_never_ends_once_destroyed.

(** If the object is already gone (or the pointer is null) it ends at once with nothing. *)
Theorem C103_null_object_ends_at_once {D S P O A} (s0 : @wstate D S P O A) m to k :
  wubs s0 = None -> walive s0 = false -> wco s0 = CRun (qCoro_timeout m to k) ->
  ∃ s1, step s0 = Next s1 ∧ wco s1 = CRun (k None) ∧ wubs s1 = None ∧ wtrace s1 = TSkip None :: wtrace s0.
Proof. exact (C63_null_with_timeout s0 m to k). Qed.
Print Assumptions C103_null_object_ends_at_once.
(** the hypotheses of all three are met: *)
Example ex_C103 : let s0 := winit tt true prog34 in let s0' := winit tt false prog34 in
  let s := wplay 20 [EvTick; EvTick] s0 in let s' := wplay 20 [EvDestroy] s0 in
  reach anything s0 ∧ wubs s0 = None ∧ noleak s0 ∧ walive s0 = true ∧ exec anything s0 s ∧ exec anything s0 s' ∧ step s = Idle ∧ step s' = Idle ∧
  wtrace s = [TTick; TTick; TSusp (FromDev sig1) (Some 2)] ∧ wtrace s' = [TDestroy; TSusp (FromDev sig1) (Some 2)] ∧
  wubs s0' = None ∧ walive s0' = false.
Proof.
  cbv zeta. split; [apply (wplay_reach anything 0 []); allowed|]. split; [done|]. split; [done|]. split; [done|].
  split; [apply wplay_exec; [allowed|constructor]|]. split; [apply wplay_exec; [allowed|constructor]|]. split_and!; vm_compute; reflexivity.
Qed.

(** ** C104: sleeping is exact in whole milliseconds ([u] units are a millisecond; [d / u] is rounded down) *)
Section sleep.
Open Scope Z_scope.
Context (u : Z) (Hu : 0 < u).
(** sleepFor(d), for durations of 0 to 2^31 - 1 ms, returns when, and only when, the whole milliseconds in [d] have passed. *)
Theorem C104_sleep_for_lower_bound t0 s t2 d now now' t1 :
  sreach u t0 s -> s_tr s = t2 ++ VAwake now' :: VFor d now :: t1 -> 0 <= d < 2 ^ 31 * u -> now + d / u * u <= now'.
Proof.
  intros Hr Ht Hd. destruct (sleep_inv u _ _ Hr) as [_ H]. destruct (H _ _ _ Ht) as (e & tr & [= <- <-] & Hle & _). cbn in Hle.
  assert (Hq : to_ms u d = d / u) by (unfold to_ms; apply Z.quot_div_nonneg; lia). rewrite Hq in Hle.
  assert (0 <= d / u < 2 ^ 31). { split; [apply Z.div_pos; lia|]. apply Z.div_lt_upper_bound; lia. }
  rewrite to_int_id in Hle by lia. destruct (d / u <? 0) eqn:E; lia.
Qed.
Theorem C104_sleep_for_returns d s n : s_pos s = SRun -> 0 <= d < 2 ^ 31 * u -> d / u * u <= Zpos n ->
  s_tr (splay u [SFor d; SPass n; STimeout] s) = VAwake (s_now s + Zpos n) :: VFor d (s_now s) :: s_tr s.
Proof.
  intros Hs Hd Hn. cbn. rewrite Hs. cbn. unfold sleep_for.
  assert (Hq : to_ms u d = d / u) by (unfold to_ms; apply Z.quot_div_nonneg; lia). rewrite Hq.
  assert (0 <= d / u < 2 ^ 31). { split; [apply Z.div_pos; lia|]. apply Z.div_lt_upper_bound; lia. }
  rewrite to_int_id by lia. destruct (d / u <? 0) eqn:E; [lia|]. cbn. destruct (_ <=? _) eqn:E2; [done|]. apply Z.leb_gt in E2. lia.
Qed.
(** A duration that is negative by at least a millisecond (and not beyond -2^31 ms) does not suspend. *)
Theorem C104_negative_returns_at_once d s : s_pos s = SRun -> - 2 ^ 31 * u <= d <= - u ->
  ∃ s', sperform u (SFor d) s = Some s' ∧ s_pos s' = SRun ∧ s_tr s' = VAwake (s_now s) :: VFor d (s_now s) :: s_tr s.
Proof.
  intros Hs Hd. cbn. rewrite Hs. eexists. split; [done|]. unfold sleep_for. cbn.
  assert (Hq : to_ms u d = - ((- d) / u)).
  { unfold to_ms. rewrite <- (Z.opp_involutive d) at 1. rewrite Z.quot_opp_l by lia. f_equal. apply Z.quot_div_nonneg; lia. }
  assert (1 <= (- d) / u <= 2 ^ 31).
  { split; [apply Z.div_le_lower_bound; lia|]. apply Z.div_le_upper_bound; lia. }
  rewrite Hq, to_int_id by lia. destruct (_ <? 0) eqn:E; [done|]. apply Z.ltb_ge in E. lia.
Qed.
(** sleepUntil(w) on std::chrono::steady_clock, with [w] less than 2^31 ms ahead: it returns less than a millisecond before [w],
    and not later than [w] if the event loop is free. *)
Theorem C104_sleep_until_lower_bound t0 s t2 w now now' t1 :
  sreach u t0 s -> s_tr s = t2 ++ VAwake now' :: VUntil 0 w now :: t1 -> 0 <= w - now < 2 ^ 31 * u -> now + (w - now) / u * u <= now'.
Proof.
  intros Hr Ht Hd. destruct (sleep_inv u _ _ Hr) as [_ H]. destruct (H _ _ _ Ht) as (e & tr & [= <- <-] & Hle & _). cbn in Hle.
  set (d := w - now) in *. assert (Hq : to_ms u d = d / u) by (unfold to_ms; apply Z.quot_div_nonneg; lia). rewrite Hq in Hle.
  assert (0 <= d / u < 2 ^ 31). { split; [apply Z.div_pos; lia|]. apply Z.div_lt_upper_bound; lia. }
  rewrite to_int_id in Hle by lia. destruct (d / u <? 0) eqn:E; lia.
Qed.
Theorem C104_sleep_until_returns w s n : s_pos s = SRun -> 0 <= w - s_now s < 2 ^ 31 * u -> w <= s_now s + Zpos n ->
  s_tr (splay u [SUntil 0 w; SPass n; STimeout] s) = VAwake (s_now s + Zpos n) :: VUntil 0 w (s_now s) :: s_tr s.
Proof. intros Hs Hd Hn. by apply C44_until_on_time. Qed.
End sleep.
Print Assumptions C104_sleep_for_lower_bound.
Print Assumptions C104_sleep_for_returns.
Print Assumptions C104_negative_returns_at_once.
Print Assumptions C104_sleep_until_lower_bound.
Print Assumptions C104_sleep_until_returns.
Example ex_C104 : sreach 1000 50 run44 ∧ s_tr run44 = [VAwake 3050; VFor 1500 2050; VAwake 2050; VFor 2000 50]%Z ∧
  s_tr (splay 1000 [SFor (-3000)] (Sst 50 SRun []))%Z = [VAwake 50; VFor (-3000) 50]%Z.
Proof. split; [apply ex44|]. split; vm_compute; reflexivity. Qed.
