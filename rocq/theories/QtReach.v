(** * Invariants of all executions of all programs. *)
From stdpp Require Import list.
From Verif Require Import QtModel QtSpec QtInv QtAwait.

Section reach.
Context {D S P O A : Type}.
Notation wstate := (@wstate D S P O A).
Notation tev := (@tev D S P O A).
Notation src := (@src S P).
#[local] Arguments slots : simpl never.
#[local] Arguments emissions : simpl never.

Definition emitted (l : list tev) : Prop := ∀ e, e ∈ l -> match e with TEmit _ _ | TReady _ | TDev _ => True | _ => False end.

(** [s'] differs from [s] only by emissions. *)
Record emits (s s' : wstate) (l : list tev) : Prop := Emits {
  em_co : wco s' = wco s; em_ub : wubs s' = wubs s; em_alive : walive s' = walive s; em_help : same_help (whelp s) (whelp s');
  em_leak : wleak s' = wleak s; em_todo : wtodo s' = wtodo s; em_now : wnow s' = wnow s; em_dev : wdev s' = dev_after (wdev s) l;
  em_trace : wtrace s' = l ++ wtrace s; em_l : emitted l }.

Lemma emits_refl s : emits s s [].
Proof. split; try done; [apply same_help_refl|]. intros ? ?%elem_of_nil. done. Qed.

Lemma dev_after_app d (l1 l2 : list tev) : dev_after d (l1 ++ l2) = dev_after (dev_after d l2) l1.
Proof. induction l1 as [|e l1 IH]; [done|]. cbn. by destruct e. Qed.

Lemma emits_trans s s1 s2 l1 l2 : emits s s1 l1 -> emits s1 s2 l2 -> emits s s2 (l2 ++ l1).
Proof.
  intros [] []. split; try congruence.
  - by eapply same_help_trans.
  - rewrite dev_after_app. congruence.
  - rewrite em_trace1, em_trace0. apply app_assoc.
  - intros e [?|?]%elem_of_app; [by apply em_l1|by apply em_l0].
Qed.

Lemma emit_clean sg p s : clean s -> wubs s = None ->
  (wubs (emit sg p s) = Some WStaleSlot ∧ existsb (λ f, f sg) (wleak s) = true) ∨ clean (emit sg p s) ∧ ∃ l, emits s (emit sg p s) (l ++ [TEmit sg p]).
Proof.
  intros [] Hub. unfold emit. change (wleak (wlog (TEmit sg p) s)) with (wleak s). destruct (existsb _ _); [by left|right].
  set (s1 := wlog (TEmit sg p) s).
  assert (Hc1 : clean s1) by (split; done).
  assert (He1 : emits s s1 [TEmit sg p]).
  { split; try done; [apply same_help_refl|]. intros e ->%elem_of_list_singleton. done. }
  assert (Hrd : ∀ s2 q, clean s2 -> is_Some (whelp s2) -> clean (ready sg q s2) ∧ emits s2 (ready sg q s2) [TReady q]).
  { intros s2 q [] [[[i h] live] Eh]. unfold ready. rewrite Eh.
    change (waw (wlog (TReady q) (set_help (Some (i, h, λ x, live x && keeps h sg x)) s2))) with (waw s2). rewrite cl_aw0. split.
    - split; try done. intros j sg' p' Hin. cbn in *. destruct (cl_relay0 j sg' p' Hin) as (? & ? & E). rewrite Eh in E. simplify_eq. eauto.
    - split; try done; [cbn; by rewrite Eh|]. intros e ->%elem_of_list_singleton. done. }
  assert (Hhs : clean (helper_slot sg p s1) ∧ ∃ l, emits s (helper_slot sg p s1) (l ++ [TEmit sg p])).
  { unfold helper_slot. destruct (whelp s1) as [[[i h] live]|] eqn:Eh; [|split; [done|by exists []]].
    destruct (live sg); [|split; [done|by exists []]].
    destruct (relay h sg p (wdev s1)) as [[[[|] q] o]|] eqn:Er; [| |split; [done|by exists []]].
    - split; [|exists []].
      + split; try done; cbn.
        * rewrite slots_app. cbn. by rewrite cl_slots.
        * intros j sg' p' Hin. cbn in Hin. apply elem_of_app in Hin as [Hin|Hin]; [by apply (cl_relay j sg' p')|].
          apply elem_of_list_singleton in Hin. simplify_eq. exists h, live. exact Eh.
      + destruct He1. split; done.
    - destruct o as [d'|].
      + assert (Hc2 : clean (wlog (TDev d') (set_dev d' s1))) by (split; done).
        destruct (Hrd _ q Hc2) as [? He2]; [exists (i, h, live); exact Eh|]. split; [done|]. exists [TReady q; TDev d'].
        apply (emits_trans s (wlog (TDev d') (set_dev d' s1)) _ ([TDev d'] ++ [TEmit sg p]) [TReady q]); [|exact He2]. eapply emits_trans; [exact He1|]. split; try done; [apply same_help_refl|].
        intros e ->%elem_of_list_singleton. done.
      + destruct (Hrd _ q Hc1) as [? He2]; [exists (i, h, live); exact Eh|]. split; [done|]. exists [TReady q].
        by apply (emits_trans s s1). }
  destruct Hhs as [Hc He]. rewrite (QtInv.cl_aw _ Hc). done.
Qed.

Lemma emit_ub sg p (s : wstate) : wubs s ≠ None -> wubs (emit sg p s) ≠ None.
Proof.
  intros H. unfold emit. cbn [wleak wlog]. destruct (existsb _ _); [done|].
  assert (Htr : ∀ a q (s1 : wstate), wubs s1 ≠ None -> wubs (trigger a q s1) ≠ None).
  { intros a q s1 H1. unfold trigger. destruct (amode a); try done. unfold resume. cbn. by destruct (wco s1). }
  assert (Hrd : ∀ q (s1 : wstate), wubs s1 ≠ None -> wubs (ready sg q s1) ≠ None).
  { intros q s1 H1. unfold ready. destruct (whelp s1) as [[[??]?]|]; [|done]. cbn. destruct (waw s1) as [a|]; [|done].
    destruct (asrc a); [done|]. destruct (aconn a); [|done]. by apply Htr. }
  assert (Hs1 : wubs (helper_slot sg p (wlog (TEmit sg p) s)) ≠ None).
  { unfold helper_slot. destruct (whelp _) as [[[i h] live]|]; [|done]. destruct (live sg); [|done].
    destruct (relay h sg p _) as [[[[|] q] [d'|]]|]; try done; by apply Hrd. }
  destruct (waw _) as [a|]; [|done]. destruct (asrc a) as [m|]; [|done]. destruct (aconn a); [|done]. destruct (m sg p); [|done]. by apply Htr.
Qed.

Lemma emit_all_ub ems : ∀ s : wstate, wubs s ≠ None -> wubs (foldl (λ s e, emit (fst e) (snd e) s) s ems) ≠ None.
Proof. induction ems as [|[sg p] ems IH]; intros s H; [done|]. cbn. apply IH. by apply emit_ub. Qed.

Lemma emit_all ems : ∀ s : wstate, clean s -> wubs s = None -> let s' := foldl (λ s e, emit (fst e) (snd e) s) s ems in
  wubs s' = None -> clean s' ∧ ∃ l, emits s s' l.
Proof.
  induction ems as [|[sg p] ems IH]; intros s Hc Hub s' Hub'; [split; [done|exists []; apply emits_refl]|]. cbn in s'.
  destruct (emit_clean sg p s Hc Hub) as [[Hs _]|[Hc1 [l He]]].
  - exfalso. subst s'. eapply emit_all_ub; [|exact Hub']. congruence.
  - destruct (IH (emit sg p s) Hc1) as [? [l' ?]]; [rewrite (em_ub _ _ _ He); done|done|]. split; [done|]. exists (l' ++ l ++ [TEmit sg p]). by eapply emits_trans.
Qed.

(** Only emission of stale slots, never a bad resume. *)
Lemma emit_all_ub_kind ems : ∀ s : wstate, clean s -> wubs s = None -> let s' := foldl (λ s e, emit (fst e) (snd e) s) s ems in
  wubs s' = None ∨ (wubs s' = Some WStaleSlot ∧ wleak s ≠ []).
Proof.
  induction ems as [|[sg p] ems IH]; intros s Hc Hub; [by left|]. cbn.
  assert (Hst : ∀ l (x : wstate), wubs x = Some WStaleSlot -> waw x = None -> wubs (foldl (λ s e, emit (fst e) (snd e) s) x l) = Some WStaleSlot).
  { clear. induction l as [|[sg p] l IH]; intros x H Ha; [done|]. cbn.
    assert (Hrd : ∀ q (s1 : wstate), wubs s1 = Some WStaleSlot -> waw s1 = None -> wubs (ready sg q s1) = Some WStaleSlot ∧ waw (ready sg q s1) = None).
    { intros q s1 H1 Ha1. unfold ready. destruct (whelp s1) as [[[??]?]|]; [|done]. cbn. rewrite Ha1. done. }
    assert (Hs1 : wubs (helper_slot sg p (wlog (TEmit sg p) x)) = Some WStaleSlot ∧ waw (helper_slot sg p (wlog (TEmit sg p) x)) = None).
    { unfold helper_slot. destruct (whelp _) as [[[i h] live]|]; [|done]. destruct (live sg); [|done].
      destruct (relay h sg p _) as [[[[|] q] [d'|]]|]; try done; by apply Hrd. }
    destruct Hs1 as [Hu Hn]. apply IH; unfold emit; destruct (existsb _ _); try done; rewrite Hn; done. }
  destruct (emit_clean sg p s Hc Hub) as [[Hs Hl]|[Hc1 [l He]]].
  - right. split; [|intros E; by rewrite E in Hl]. apply Hst; [done|]. unfold emit. change (wleak (wlog (TEmit sg p) s)) with (wleak s). rewrite Hl.
    apply Hc.
  - destruct (IH (emit sg p s) Hc1) as [?|[? Hl]]; [rewrite (em_ub _ _ _ He); done|by left|right]. split; [done|]. by rewrite <- (em_leak _ _ _ He).
Qed.

(** Every resumption in the trace is explained by what happened since the coroutine suspended. *)
Definition explained (t : list tev) : Prop := ∀ l1 v l2, t = l1 ++ TResume v :: l2 ->
  ∃ c to l l3, l2 = l ++ TSusp c to :: l3 ∧ quiet l ∧ awaited c to l v.

Lemma awaited_mode m (c : src) to (l : list tev) v : awaited c (match m with MQueued => to | _ => None end) l v -> awaited c to l v.
Proof. destruct v; [done|]. intros (n & l' & Hto & ?). exists n, l'. destruct m; done. Qed.

Lemma explained_cons e (t : list tev) : (∀ v, e = TResume v -> ∃ c to l l3, t = l ++ TSusp c to :: l3 ∧ quiet l ∧ awaited c to l v) -> explained t -> explained (e :: t).
Proof.
  intros He Ht l1 v l2 Heq. destruct l1 as [|e' l1]; cbn in Heq; injection Heq as -> ->; [by apply He|]. by apply (Ht l1).
Qed.
Lemma explained_quiet l (t : list tev) : (∀ v, TResume v ∉ l) -> explained t -> explained (l ++ t).
Proof.
  induction l as [|e l IH]; intros Hl Ht; [done|]. cbn. apply explained_cons.
  - intros v ->. exfalso. apply (Hl v). by left.
  - apply IH; [|done]. intros v ?. apply (Hl v). by right.
Qed.
Lemma quiet_resume (l : list tev) v : quiet l -> TResume v ∉ l.
Proof. intros H Hin. by apply (H (TResume v)). Qed.

(** The invariant: no undefined behaviour so far, and ... *)
Definition winv (s : wstate) : Prop :=
  explained (wtrace s) ∧
  match wco s with
  | CRun _ | CDone _ => clean s
  | CSusp k | CBack k => ∃ m c to s0 l, phase m c to k s0 s l ∧ explained (wtrace s0)
  end.

Definition okub (s : wstate) : Prop := ∀ u, wubs s = Some u -> u ≠ WBadResume.

Lemma clean_log e (s : wstate) : clean s -> clean (wlog e s).
Proof. intros []. split; done. Qed.
Lemma clean_co c (s : wstate) : clean s -> clean (set_co c s).
Proof. intros []. split; done. Qed.

Lemma explained_phase m c to k (s0 s : wstate) l : phase m c to k s0 s l -> explained (wtrace s0) -> explained (wtrace s).
Proof.
  intros [Hsi _] He. rewrite (si_trace _ _ _ _ _ Hsi). apply explained_quiet; [intros v; apply quiet_resume, Hsi|]. by apply explained_cons.
Qed.

Lemma phase_co m c to k (s0 s : wstate) l : phase m c to k s0 s l -> wco s = CSusp k ∨ wco s = CBack k.
Proof. intros [_ [a [[? _]|[? _]]]]; auto. Qed.

Lemma winv_phase m c to k (s0 s : wstate) l : phase m c to k s0 s l -> explained (wtrace s0) -> winv s.
Proof.
  intros Hp He. split; [by eapply explained_phase|]. destruct (phase_co _ _ _ _ _ _ _ Hp) as [-> | ->]; by exists m, c, to, s0, l.
Qed.

Lemma winv_step (s s' : wstate) : winv s -> wubs s = None -> step s = Next s' -> okub s' ∧ (wubs s' = None -> winv s').
Proof.
  intros [He Hs] Hub Hst.
  assert (Hres : ∀ m c to k s0 l v, resumed m c to k s0 s' l v -> explained (wtrace s0) -> okub s' ∧ (wubs s' = None -> winv s')).
  { intros m c to k s0 l v Hr He0. split; [intros u; by rewrite (re_ub _ _ _ _ _ _ _ _ Hr)|]. intros _. destruct Hr. split.
    - rewrite re_trace. apply explained_cons.
      + intros v' [= <-]. exists c, to, l, (wtrace s0). split; [done|]. split; [done|]. by eapply awaited_mode.
      + apply explained_quiet; [intros v'; by apply quiet_resume|]. by apply explained_cons.
    - rewrite re_co. done. }
  destruct (wco s) as [p|k|k|a] eqn:Hco.
  - unfold step in Hst. rewrite Hub, Hco in Hst. injection Hst as <-.
    assert (Hok : ∀ x : wstate, wubs x = None -> okub x) by (intros x Hx u; congruence).
    destruct p as [a|o p|k|k|f k|h p|p|m c to k|].
    + split; [by apply Hok|intros _]. split; [by apply explained_cons|]. by apply clean_log, clean_co.
    + split; [by apply Hok|intros _]. split; [by apply explained_cons|]. by apply clean_log, clean_co.
    + split; [by apply Hok|intros _]. split; [done|]. by apply clean_co.
    + destruct (walive s); [|split; [by intros u [= <-]|done]]. split; [by apply Hok|intros _]. split; [done|]. by apply clean_co.
    + destruct (walive s) eqn:Eal; [|split; [by intros u [= <-]|done]].
      set (s1 := wlog (TDev (fst (f (wdev s)))) _).
      assert (Hc1 : clean s1) by (destruct Hs; split; done). split.
      * destruct (emit_all_ub_kind (snd (f (wdev s))) s1 Hc1) as [Hu|[Hu _]]; [done|by apply Hok|]. intros u. rewrite Hu. by intros [= <-].
      * intros Hu. destruct (emit_all (snd (f (wdev s))) s1 Hc1) as [Hc2 [l Hem]]; [done|done|].
        split.
        -- rewrite (em_trace _ _ _ Hem). apply explained_quiet; [|by apply explained_cons].
           intros v Hin. by apply (em_l _ _ _ Hem) in Hin.
        -- rewrite (em_co _ _ _ Hem). exact Hc2.
    + destruct (whelp s) eqn:Eh; [split; [by intros u [= <-]|done]|].
      destruct (walive s) eqn:Eal; [|split; [by intros u [= <-]|done]].
      split; [by apply Hok|intros _]. split; [done|]. cbn. destruct Hs. split; try done. intros j sg q Hin. cbn in Hin.
      destruct (cl_relay j sg q Hin) as (? & ? & E). congruence.
    + unfold drop_helper. cbn. destruct (whelp s) as [[[i h] live]|] eqn:Eh; [|split; [by intros u [= <-]|done]].
      split; [by apply Hok|intros _]. split; [done|]. destruct Hs. split; try done; cbn.
      * by rewrite slots_filter_help.
      * intros j sg q Hin. cbn in Hin. pose proof Hin as Hin2. apply filter_sub in Hin. destruct (cl_relay j sg q Hin) as (? & ? & E). rewrite Eh in E. simplify_eq.
        apply elem_of_list_In, filter_In in Hin2 as [_ Hx]. rewrite Nat.eqb_refl in Hx. done.
    + assert (Hd : (is_dev c ∧ walive s = false) ∨ (¬ is_dev c ∧ whelp s = None) ∨
        ((is_dev c -> walive s = true) ∧ (¬ is_dev c -> is_Some (whelp s)))).
      { destruct c as [mm|]; cbn.
        - destruct (walive s); [right; right|left; done]. split; [done|]. intros []. done.
        - destruct (whelp s); [right; right|right; left; split; [by intros []|done]]. split; [by intros []|eauto]. }
      destruct Hd as [[Hd Ha]|[[Hd Hh]|[Hd Hh]]].
      { unfold await. destruct c; [|done]. rewrite Ha. split; [by apply Hok|intros _]. split; [by apply explained_cons|]. by apply clean_log, clean_co. }
      { unfold await. destruct c as [mm|]; [by destruct Hd|]. rewrite Hh. split; [by intros u [= <-]|done]. }
      destruct (await_phase m c to k s Hco Hub Hs Hd Hh) as (s1 & Hst & Hu & Hph).
      unfold step in Hst. rewrite Hub, Hco in Hst. injection Hst as ->. split; [by apply Hok|]. intros _. by eapply winv_phase.
    + split; [by intros u [= <-]|done].
  - destruct Hs as (m & c & to & s0 & l & Hph & He0). destruct (phase_step _ _ _ _ _ _ _ _ Hph Hub Hst) as [[Hu _]|[(Hu & l' & Hph')|[v Hr]]].
    + split; [|congruence]. intros u Hx. rewrite Hu in Hx. by injection Hx as <-.
    + split; [intros u; congruence|]. intros _. by eapply winv_phase.
    + by apply Hres with m c to k s0 l v.
  - destruct Hs as (m & c & to & s0 & l & Hph & He0). destruct (phase_step _ _ _ _ _ _ _ _ Hph Hub Hst) as [[Hu _]|[(Hu & l' & Hph')|[v Hr]]].
    + split; [|congruence]. intros u Hx. rewrite Hu in Hx. by injection Hx as <-.
    + split; [intros u; congruence|]. intros _. by eapply winv_phase.
    + by apply Hres with m c to k s0 l v.
  - unfold step in Hst. rewrite Hub, Hco in Hst. destruct (wtodo s) as [|[sg p] q] eqn:Et; [done|]. injection Hst as <-.
    assert (Hc1 : clean (set_todo q s)).
    { destruct Hs. split; try done. cbn. intros Hal. rewrite Et in cl_todo. by specialize (cl_todo Hal). }
    destruct (emit_clean sg p (set_todo q s) Hc1 Hub) as [[Hu _]|[Hc2 [l Hem]]].
    + split; [|congruence]. intros u Hx. rewrite Hu in Hx. by injection Hx as <-.
    + assert (Hu : wubs (emit sg p (set_todo q s)) = None) by (rewrite (em_ub _ _ _ Hem); done).
      split; [intros u; congruence|]. intros _. split.
      * rewrite (em_trace _ _ _ Hem). apply explained_quiet; [|done]. intros v Hin. by apply (em_l _ _ _ Hem) in Hin.
      * rewrite (em_co _ _ _ Hem). cbn. rewrite Hco. done.
Qed.

Lemma winv_env (s : wstate) e s' : winv s -> wubs s = None -> step s = Idle -> env_step e s = Next s' -> wubs s' = None ∧ winv s'.
Proof.
  intros [He Hs] Hub Hid Henv. destruct (wco s) as [p|k|k|a] eqn:Hco.
  - unfold step in Hid. rewrite Hub, Hco in Hid. done.
  - destruct Hs as (m & c & to & s0 & l & Hph & He0). destruct (phase_env _ _ _ _ _ _ _ _ _ Hph Hub Hid Henv) as (Hu & l' & Hph'). split; [done|]. by eapply winv_phase.
  - unfold step in Hid. rewrite Hub, Hco in Hid. done.
  - assert (Hto : wtodo s = []).
    { unfold step in Hid. rewrite Hub, Hco in Hid. by destruct (wtodo s) as [|[??]?]. }
    destruct Hs. destruct e as [d ems| | | | |]; cbn in Henv.
    + destruct (walive s) eqn:Eal; [|done]. injection Henv as <-. split; [done|]. split; [by apply explained_cons|]. cbn. rewrite Hco. split; try done. cbn. congruence.
    + destruct (walive s) eqn:Eal; [|done]. injection Henv as <-. split; [done|]. split; [by apply explained_cons|]. cbn. rewrite Hco. split; try done; cbn.
      * by rewrite cl_aw.
      * intros j sg p Hin. cbn in Hin. destruct (cl_relay j sg p Hin) as (? & ? & E). cbn. rewrite E. eauto.
    + destruct (wposted s) as [|[i p|i sg p] q] eqn:Ep; [done|..].
      * exfalso. done.
      * destruct (cl_relay i sg p) as (h & live & E); [rewrite Ep; left|]. cbn in Henv. rewrite E, decide_True in Henv by done. injection Henv as <-.
        unfold ready. cbn. rewrite E. cbn. rewrite cl_aw. split; [done|]. split; [by apply explained_cons|]. cbn. rewrite Hco. split; try done; cbn.
        intros j sg' p' Hin. cbn in Hin. destruct (cl_relay j sg' p') as (? & ? & E'); [rewrite Ep; by right|]. rewrite E in E'. simplify_eq. cbn. eauto.
    + rewrite cl_shots in Henv. done.
    + rewrite cl_aw in Henv. done.
    + injection Henv as <-. split; [done|]. split; [by apply explained_cons|]. cbn. rewrite Hco. split; done.
Qed.

Lemma winit_inv d al p : winv (winit (D:=D) (S:=S) (P:=P) (O:=O) (A:=A) d al p).
Proof.
  split.
  - intros l1 v l2 H. cbn in H. by destruct l1.
  - cbn. split; try done. intros j sg q Hin. by apply elem_of_nil in Hin.
Qed.

Lemma winv_exec denv (s0 s : wstate) : winv s0 -> wubs s0 = None -> exec denv s0 s -> okub s ∧ (wubs s = None -> winv s).
Proof.
  intros Hi Hu. induction 1 as [s|s0 s s' H IH Hs|s0 s e s' H IH Hid Hub He Hd].
  - split; [intros u; congruence|done].
  - destruct (IH Hi Hu) as [_ Hw]. destruct (wubs s) eqn:E; [unfold step in Hs; by rewrite E in Hs|]. by eapply winv_step; [apply Hw| |].
  - destruct (IH Hi Hu) as [_ Hw]. destruct (winv_env s e s' (Hw Hub) Hub Hid He) as [Hu' ?]. split; [intros u; congruence|done].
Qed.
End reach.
