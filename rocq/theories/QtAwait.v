(** * What a co_await on a signal does, for every history of events. *)
From stdpp Require Import list.
From Verif Require Import QtModel QtSpec QtInv.

Section await.
Context {D S P O A : Type}.
Notation wstate := (@wstate D S P O A).
Notation wprog := (@wprog D S P O).
Notation tev := (@tev D S P O A).
Notation src := (@src S P).
#[local] Arguments slots : simpl never.
#[local] Arguments emissions : simpl never.

(** The state after the resumption, relative to the state [s0] before the co_await. *)
Record resumed (m : mode) (c : src) (to : option nat) (k : option P -> wprog A) (s0 s : wstate) (l : list tev) (v : option P) : Prop := Resumed {
  re_co : wco s = CRun (k v); re_ub : wubs s = None; re_clean : clean s;
  re_trace : wtrace s = TResume v :: l ++ TSusp c to :: wtrace s0;
  re_now : wnow s = wnow s0 + elapsed l;
  re_dev : wdev s = dev_after (wdev s0) l;
  re_alive : TDestroy ∉ l -> walive s = walive s0;
  re_dead : TDestroy ∈ l -> walive s = false;
  re_quiet : quiet l;
  re_help : same_help (whelp s0) (whelp s);
  re_leak : wleak s = wleak s0 ∨ wleak s = [];
  re_res : awaited c (match m with MQueued => to | _ => None end) l v }.

Lemma phase_env m (c : src) to k (s0 s : wstate) l e s' : phase m c to k s0 s l -> wubs s = None -> step s = Idle -> env_step e s = Next s' ->
  wubs s' = None ∧ ∃ l', phase m c to k s0 s' (l' ++ l).
Proof.
  intros [Hsi [a [[Hco Hwa]|[Hco Hba]]]] Hub Hid Henv; cycle 1.
  { exfalso. unfold step in Hid. rewrite Hub, Hco in Hid. done. }
  assert (Hto : wtodo s = []).
  { unfold step in Hid. rewrite Hub, Hco in Hid. destruct (wtodo s) as [|[??]?]; [done|done]. }
  pose proof Hwa as [].
  destruct e as [d ems| | | | |]; cbn in Henv.
  - (* the object changes *)
    destruct (walive s) eqn:Eal; [|done]. injection Henv as <-. split; [done|]. exists [TDev d]. apply waits_phase.
    split; [|split; [done|]].
    + eapply since_dev; [exact Hsi|done..|apply same_help_refl|done| |].
      * cbn. congruence.
      * eapply relay_ok_same; [apply Hsi|done|apply same_help_refl].
    + exists a. eapply waiting_ext; [exact Hwa|by destruct c|done..].
  - (* the object is destroyed *)
    destruct (walive s) eqn:Eal; [|done]. injection Henv as <-. split; [done|]. exists [TDestroy]. cbn [app].
    assert (Hh : same_help (whelp s) (match whelp s with Some (i, h, _) => Some (i, h, λ _, false) | None => None end)).
    { destruct (whelp s) as [[[??]?]|]; cbn; done. }
    split.
    + destruct Hsi. split; cbn; try done.
      * by rewrite si_trace.
      * intros Hx. exfalso. apply Hx. by left.
      * by apply quiet_cons.
      * by eapply same_help_trans.
      * by right.
      * intros j sg p Hin. destruct (si_relay j sg p Hin) as (h & live & E). rewrite E. eauto.
    + rewrite wa_aw. destruct c as [mm|]; rewrite wa_src; eexists; left; (split; [done|]).
      * split; cbn; try done.
        -- intros _. left. split; [done|by left].
        -- intros _. split; [done|by left].
        -- rewrite emissions_cons. cbn. rewrite app_nil_r. destruct m; try done. destruct wa_mod as (? & [?|(p & ? & ? & ?)]); [by split; [|left]|]. split; [done|]. right. eauto.
        -- destruct (atimer a); [|intros ??; right; by apply wa_timer]. destruct wa_timer as (? & ? & ?). split; [done|]. split; [|done].
           intros [?|?]%elem_of_cons; done.
        -- intros [?|Hx]%elem_of_cons; [done|]. split; [|done]. by destruct (wa_expire Hx).
      * split; cbn; try done.
        -- intros H. destruct (wa_conn H) as [[[] _]|?]. by right.
        -- intros H. destruct (wa_ctx H) as [[] _].
        -- intros _. destruct (wa_help (λ x, x)) as [[[??]?] ->]. eauto.
        -- rewrite emissions_cons. cbn. rewrite app_nil_r. done.
        -- destruct (atimer a); [|intros ??; right; by apply wa_timer]. destruct wa_timer as (? & ? & ?). split; [done|]. split; [|done].
           intros [?|?]%elem_of_cons; done.
        -- intros [?|Hx]%elem_of_cons; [done|]. destruct (wa_expire Hx) as [? Hy]. destruct (wa_ctx Hy) as [[] _].
  - (* a posted event *)
    destruct (wposted s) as [|[i p|i sg p] q] eqn:Ep; [done|..].
    + cbn in Henv. rewrite wa_aw in Henv.
      assert (Hsl : slots (wposted s) = (i, p) :: slots q) by (by rewrite Ep).
      assert (m = MQueued) as Hm.
      { destruct m; [done|destruct wa_mod as (_ & _ & Hx & _)|destruct wa_mod as (Hx & _)]; rewrite Ep in Hsl; rewrite Hsl in Hx; done. }
      rewrite Hm in *. destruct wa_mod as (Hsh & Hr & Hsl'). rewrite Ep in Hsl. rewrite Hsl in Hsl'.
      destruct (emissions c l) as [|p' em] eqn:Eem; [done|]. cbn in Hsl'. injection Hsl' as -> -> Hq.
      rewrite decide_True in Henv by done. injection Henv as <-. unfold resume. cbn. rewrite Hco. cbn. split; [done|]. exists []. cbn. split.
      * eapply since_same; [exact Hsi|done..|apply same_help_refl|done| |].
        -- cbn. apply Hsi.
        -- intros j sg q' Hin. cbn in Hin. apply (QtInv.si_relay _ _ _ _ _ Hsi j sg q'). rewrite Ep. by right.
      * eexists. right. split; [done|]. split; cbn; [done|done| |].
        -- intros j p. rewrite Hq. intros (? & [= ? ?] & ?)%elem_of_list_fmap. done.
        -- cbn [ares awaited]. rewrite Eem. split; [done|]. intros Hx. destruct (wa_expire Hx) as [_ Hy]. by destruct (wa_ctx Hy).
    + cbn in Henv. destruct (QtInv.si_relay _ _ _ _ _ Hsi i sg p) as (h & live & E); [rewrite Ep; left|]. rewrite E, decide_True in Henv by done.
      injection Henv as <-.
      destruct (ready_phase m c to k s0 (set_posted q s) l sg p) as (Hph & Hu & _).
      * split; [|split; [done|]].
        -- eapply since_same; [exact Hsi|done..|apply same_help_refl|done|apply Hsi|].
           intros j sg' q' Hin. cbn in Hin. apply (QtInv.si_relay _ _ _ _ _ Hsi j sg' q'). rewrite Ep. by right.
        -- exists a. change (slots (PRelay i sg p :: q)) with (slots q) in wa_mod. split; try done.
      * done.
      * cbn. rewrite E. eauto.
      * split; [done|]. by exists [TReady p].
  - (* the zero timer *)
    destruct (wshots s) as [|n] eqn:Es; [done|]. injection Henv as <-. unfold resume. cbn. rewrite Hco. cbn. split; [done|].
    exists []. cbn. destruct m; [by destruct wa_mod|by destruct wa_mod|]. destruct wa_mod as (Hsl & [(?&?&?)|(p & Hr & Hc & Hn & Hem)]); [done|].
    injection Hn as ->. split.
    + eapply since_same; [exact Hsi|done..|apply same_help_refl|done|apply Hsi|]. intros j sg' q' Hin. cbn in Hin. by apply (QtInv.si_relay _ _ _ _ _ Hsi j sg' q').
    + exists a. right. split; [done|]. split; cbn; [done|done| |].
      * rewrite Hsl. intros ?? ?%elem_of_nil. done.
      * rewrite Hr. split; [done|]. intros Hx. by destruct (wa_expire Hx).
  - (* the timeout *)
    rewrite wa_aw in Henv. destruct (atimer a) as [n|] eqn:Et; [|done]. destruct (decide _) as [Hle|]; [|done].
    destruct wa_timer as (-> & Hnx & t & Hto' & Hn).
    assert (Hsi' : ∀ s1, wtrace s1 = TExpire :: wtrace s -> wnow s1 = wnow s -> wdev s1 = wdev s -> walive s1 = walive s -> whelp s1 = whelp s ->
      wleak s1 = wleak s -> wtodo s1 = wtodo s -> wposted s1 = wposted s -> since c to s0 s1 (TExpire :: l)).
    { intros s1 ? ? ? ? Hh ? ? ?. assert (same_help (whelp s) (whelp s1)) by (rewrite Hh; apply same_help_refl).
      eapply since_log; [exact Hsi|done..|]. eapply relay_ok_same; [apply Hsi|done|done]. }
    injection Henv as <-. destruct (actx a) eqn:Ec.
    + unfold resume. cbn. rewrite Hco. cbn. split; [done|]. exists [TExpire]. cbn [app]. split; [by apply Hsi'|].
      eexists. right. split; [done|]. destruct wa_mod as (Hsh & Hr & Hsl). split; cbn; [done|done| |].
      * rewrite Hsl. intros j p (? & [= ? ?] & ?)%elem_of_list_fmap. done.
      * rewrite Hr. exists t, l. split; [done|]. split; [done|]. split; [pose proof (QtInv.si_now _ _ _ _ _ Hsi); lia|]. split; [done|].
        destruct c; [|done]. intros Hx. specialize (wa_gone I Hx). congruence.
    + split; [done|]. exists [TExpire]. cbn [app]. split; [by apply Hsi'|]. eexists. left. split; [done|].
      destruct (wa_ctx eq_refl) as [Hd Hde]. split; cbn; try done.
      * intros _. left. split; [done|by right].
      * intros _. split; [done|by right].
      * rewrite emissions_cons. destruct wa_mod as (? & ? & ->). destruct c; cbn; rewrite app_nil_r; done.
      * intros _ _. by left.
  - (* time passes *)
    injection Henv as <-. split; [done|]. exists [TTick]. apply waits_phase. split; [|split; [done|]].
    + destruct Hsi. split; cbn; try done.
      * by rewrite si_trace.
      * rewrite si_now. lia.
      * intros Hx. apply si_alive. intros ?. apply Hx. by right.
      * intros [?|?]%elem_of_cons; [done|auto].
      * by apply quiet_cons.
    + exists a. eapply waiting_ext; [exact Hwa|by destruct c|done..].
Qed.

Lemma phase_step m (c : src) to k (s0 s : wstate) l s' : phase m c to k s0 s l -> wubs s = None -> step s = Next s' ->
  (wubs s' = Some WStaleSlot ∧ ∃ sg, existsb (λ f, f sg) (wleak s) = true) ∨
  (wubs s' = None ∧ ∃ l', phase m c to k s0 s' (l' ++ l)) ∨
  ∃ v, resumed m c to k s0 s' l v.
Proof.
  intros [Hsi [a [[Hco Hwa]|[Hco Hba]]]] Hub Hst; unfold step in Hst; rewrite Hub, Hco in Hst.
  - destruct (wtodo s) as [|[sg p] q] eqn:Et; [done|]. injection Hst as <-.
    assert (Hal : walive s = true) by (destruct (walive s) eqn:E; [done|]; apply (si_todo _ _ _ _ _ Hsi) in E; congruence).
    assert (Hw : waits m c to k s0 (set_todo q s) l).
    { split; [|split; [done|]].
      - eapply since_same; [exact Hsi|done..|apply same_help_refl|done| |].
        + cbn. congruence.
        + intros j sg' q' Hin. cbn in Hin. by apply (si_relay _ _ _ _ _ Hsi j sg' q').
      - exists a. destruct Hwa. split; done. }
    destruct (emit_phase m c to k s0 (set_todo q s) l sg p Hw Hub Hal) as [[? ?]|(? & l' & ? & _)]; [left; eauto|right; left; eauto].
  - injection Hst as <-. right. right. destruct Hba. rewrite ba_aw. exists (ares a). unfold drop_awaiter. rewrite ba_aw.
    destruct Hsi. split; cbn; try done.
    + split; cbn; try done.
      * by apply slots_filter_aw.
      * intros j sg p Hin. cbn in Hin. apply filter_sub in Hin. by apply (si_relay j sg p).
    + by rewrite si_trace.
Qed.

Lemma await_phase m (c : src) to k (s0 : wstate) : wco s0 = CRun (WAwait m c to k) -> wubs s0 = None -> clean s0 ->
  (is_dev c -> walive s0 = true) -> (¬ is_dev c -> is_Some (whelp s0)) ->
  ∃ s1, step s0 = Next s1 ∧ wubs s1 = None ∧ phase m c to k s0 s1 [].
Proof.
  intros Hco Hub [] Hal Hhe. unfold step. rewrite Hub, Hco. unfold await.
  set (go := wlog (TSusp c to) _).
  assert (Hgo : wubs go = None ∧ phase m c to k s0 go []).
  { split; [done|]. split.
    - split; cbn; try done.
      + intros ?%elem_of_nil. done.
      + intros ? ?%elem_of_nil. done.
      + apply same_help_refl.
      + by left.
    - eexists. left. split; [done|]. split; cbn; try done.
      + unfold emissions. cbn. destruct m; try done. split; [done|]. left. done.
      + destruct m; cbn; try done. destruct to; cbn; [|by intros ? []]. split; [done|]. split; [apply not_elem_of_nil|]. eauto.
      + intros ?%elem_of_nil. done.
      + intros ? ?%elem_of_nil. done. }
  destruct c as [mm|].
  - rewrite Hal by done. eauto.
  - destruct Hhe as [? ->]; [intros []|]. eauto.
Qed.

Lemma exec_inv denv (s0 s : wstate) : exec denv s0 s -> s = s0 ∨
  (∃ s1, step s0 = Next s1 ∧ exec denv s1 s) ∨
  (∃ e s1, step s0 = Idle ∧ wubs s0 = None ∧ env_step e s0 = Next s1 ∧
     match e with EvDev d ems => denv (wdev s0) ems d | _ => True end ∧ exec denv s1 s).
Proof.
  induction 1 as [s|s0 s s' H IH Hs|s0 s e s' H IH Hi Hu He Hd]; [by left|..].
  - destruct IH as [->|[(s1 & ? & ?)|(e & s1 & ? & ? & ? & ? & ?)]]; right.
    + left. exists s'. split; [done|constructor].
    + left. exists s1. split; [done|]. by eapply exec_step.
    + right. exists e, s1. do 4 (split; [done|]). by eapply exec_step.
  - destruct IH as [->|[(s1 & ? & ?)|(e' & s1 & ? & ? & ? & ? & ?)]]; right.
    + right. exists e, s'. do 4 (split; [done|]). constructor.
    + left. exists s1. split; [done|]. by eapply exec_env.
    + right. exists e', s1. do 4 (split; [done|]). by eapply exec_env.
Qed.

Lemma exec_trans denv (s0 s1 s2 : wstate) : exec denv s0 s1 -> exec denv s1 s2 -> exec denv s0 s2.
Proof.
  intros H1 H2. revert H1. induction H2 as [|s1 s s' H IH Hs|s1 s e s' H IH Hi Hu He Hd]; intros H1; [done|..].
  - eapply exec_step; [by apply IH|done].
  - eapply exec_env; [by apply IH|done..].
Qed.

(** The execution of a co_await: still waiting, or resumed with the outcome described by [awaited]. *)
Lemma phase_exec denv m (c : src) to k (s0 s1 : wstate) l s : phase m c to k s0 s1 l -> wubs s1 = None -> noleak s0 -> exec denv s1 s ->
  (wubs s = None ∧ ∃ l', phase m c to k s0 s (l' ++ l)) ∨
  ∃ l' v s2, resumed m c to k s0 s2 (l' ++ l) v ∧ exec denv s1 s2 ∧ exec denv s2 s.
Proof.
  intros Hph Hub Hlk Hex. induction Hex as [s1|s1 s s' Hex IH Hst|s1 s e s' Hex IH Hid Hu He Hd].
  - left. split; [done|]. by exists [].
  - destruct (IH Hph Hub) as [[Hu [l' Hp]]|(l' & v & s2 & ? & ? & ?)]; cycle 1.
    { right. exists l', v, s2. split; [done|]. split; [done|]. by eapply exec_step. }
    destruct (phase_step _ _ _ _ _ _ _ _ Hp Hu Hst) as [(_ & sg & Hlx)|[(? & l'' & ?)|[v Hr]]].
    + exfalso. destruct Hp as [Hsi _]. destruct (si_leak _ _ _ _ _ Hsi) as [E|E]; rewrite E in Hlx; [rewrite Hlk in Hlx|]; done.
    + left. split; [done|]. exists (l'' ++ l'). by rewrite <- app_assoc.
    + right. exists l', v, s'. split; [done|]. split; [by eapply exec_step|constructor].
  - destruct (IH Hph Hub) as [[Hu' [l' Hp]]|(l' & v & s2 & ? & ? & ?)]; cycle 1.
    { right. exists l', v, s2. split; [done|]. split; [done|]. by eapply exec_env. }
    destruct (phase_env _ _ _ _ _ _ _ _ _ Hp Hu' Hid He) as (? & l'' & ?).
    left. split; [done|]. exists (l'' ++ l'). by rewrite <- app_assoc.
Qed.

Lemma await_exec denv m (c : src) to k (s0 s : wstate) : wco s0 = CRun (WAwait m c to k) -> wubs s0 = None -> clean s0 -> noleak s0 ->
  (is_dev c -> walive s0 = true) -> (¬ is_dev c -> is_Some (whelp s0)) -> exec denv s0 s ->
  s = s0 ∨ (wubs s = None ∧ ∃ l, phase m c to k s0 s l) ∨
  ∃ l v s2, resumed m c to k s0 s2 l v ∧ exec denv s0 s2 ∧ exec denv s2 s.
Proof.
  intros Hco Hub Hcl Hlk Hal Hhe Hex.
  destruct (await_phase m c to k s0 Hco Hub Hcl Hal Hhe) as (s1 & Hst & Hu1 & Hph).
  destruct (exec_inv _ _ _ Hex) as [->|[(s1' & Hst' & Hex1)|(e & s1' & Hst' & _)]]; [by left| |congruence].
  rewrite Hst in Hst'. injection Hst' as <-. right.
  destruct (phase_exec denv _ _ _ _ _ _ _ _ Hph Hu1 Hlk Hex1) as [[? [l' ?]]|(l' & v & s2 & Hr & Hx & Hy)].
  - left. split; [done|]. rewrite app_nil_r in *. eauto.
  - right. rewrite app_nil_r in *. exists l', v, s2. split; [done|]. split; [|done].
    eapply exec_trans; [|exact Hx]. eapply exec_step; [constructor|done].
Qed.
End await.
