(** * Invariants of the machine of QtModel.v. *)
From stdpp Require Import list.
From Verif Require Import QtModel QtSpec.

Section inv.
Context {D S P O A : Type}.
Notation wstate := (@wstate D S P O A).
Notation wprog := (@wprog D S P O).
Notation tev := (@tev D S P O A).
Notation src := (@src S P).

Definition slots (l : list (@posted S P)) : list (nat * P) := omap (λ e, match e with PSlot i p => Some (i, p) | _ => None end) l.

Definition relay_ok (s : wstate) : Prop := ∀ j sg p, PRelay j sg p ∈ wposted s -> ∃ h live, whelp s = Some (j, h, live).

(** No awaiter and nothing left of an earlier one. *)
Record clean (s : wstate) : Prop := Clean {
  cl_aw : waw s = None; cl_slots : slots (wposted s) = []; cl_shots : wshots s = 0; cl_relay : relay_ok s;
  cl_todo : walive s = false -> wtodo s = [] }.

Definition same_help (x y : option (nat * @helper D S P * (S -> bool))) : Prop :=
  match x, y with
  | None, None => True
  | Some (i, h, _), Some (j, h', _) => i = j ∧ h = h'
  | _, _ => False
  end.

(** What holds between the state [s0] before a co_await and a state [s] of the wait. *)
Record since (c : src) (to : option nat) (s0 s : wstate) (l : list tev) : Prop := Since {
  si_trace : wtrace s = l ++ TSusp c to :: wtrace s0;
  si_now : wnow s = wnow s0 + elapsed l;
  si_dev : wdev s = dev_after (wdev s0) l;
  si_alive : TDestroy ∉ l -> walive s = walive s0;
  si_dead : TDestroy ∈ l -> walive s = false;
  si_quiet : quiet l;
  si_help : same_help (whelp s0) (whelp s);
  si_leak : wleak s = wleak s0 ∨ wleak s = [];
  si_todo : walive s = false -> wtodo s = [];
  si_relay : relay_ok s }.

Definition is_dev (c : src) : Prop := match c with FromDev _ => True | FromHelper => False end.

(** Suspended. *)
Record waiting (m : mode) (c : src) (to : option nat) (s0 s : wstate) (l : list tev) (a : @awaiter S P) : Prop := Waiting {
  wa_aw : waw s = Some a; wa_src : asrc a = c; wa_mode : amode a = m;
  wa_conn : aconn a = false -> (is_dev c ∧ TDestroy ∈ l) ∨ (m = MShot ∧ is_Some (ares a));
  wa_ctx : actx a = false -> is_dev c ∧ TDestroy ∈ l;
  wa_help : ¬ is_dev c -> is_Some (whelp s);
  wa_mod : match m with
    | MQueued => wshots s = 0 ∧ ares a = None ∧ slots (wposted s) = map (λ p, (aid a, p)) (emissions c l)
    | MDirect => wshots s = 0 ∧ ares a = None ∧ slots (wposted s) = [] ∧ emissions c l = []
    | MShot => slots (wposted s) = [] ∧
        (ares a = None ∧ wshots s = 0 ∧ emissions c l = [] ∨
         ∃ p, ares a = Some p ∧ aconn a = false ∧ wshots s = 1 ∧ head (emissions c l) = Some p)
    end;
  wa_timer : match atimer a with
    | Some n => m = MQueued ∧ TExpire ∉ l ∧ ∃ t, to = Some t ∧ n = wnow s0 + t
    | None => m = MQueued -> is_Some to -> TExpire ∈ l
    end;
  wa_expire : TExpire ∈ l -> m = MQueued ∧ actx a = false;
  wa_gone : is_dev c -> TDestroy ∈ l -> actx a = false }.

(** Resumed, about to evaluate await_resume(). *)
Record back (m : mode) (c : src) (to : option nat) (s0 s : wstate) (l : list tev) (a : @awaiter S P) : Prop := Back {
  ba_aw : waw s = Some a; ba_shots : wshots s = 0;
  ba_slots : ∀ i p, (i, p) ∈ slots (wposted s) -> i = aid a;
  ba_res : awaited c (match m with MQueued => to | _ => None end) l (ares a) }.

Definition phase m c to k s0 s l : Prop :=
  since c to s0 s l ∧ ∃ a, (wco s = CSusp k ∧ waiting m c to s0 s l a) ∨ (wco s = CBack k ∧ back m c to s0 s l a).

Lemma emissions_cons c (e : tev) l : emissions c (e :: l) = emissions c l ++ match occurs c e with Some p => [p] | None => [] end.
Proof.
  unfold emissions. rewrite reverse_cons, omap_app. cbn. by destruct (occurs c e).
Qed.

#[local] Arguments slots : simpl never.
#[local] Arguments emissions : simpl never.
Lemma slots_app l l' : slots (l ++ l') = slots l ++ slots l'.
Proof. apply omap_app. Qed.

Lemma slots_filter_aw i l : (∀ j p, (j, p) ∈ slots l -> j = i) ->
  slots (List.filter (λ e : @posted S P, match e with PSlot j _ => negb (j =? i) | PRelay _ _ _ => true end) l) = [].
Proof.
  unfold slots. induction l as [|[j p|h sg p] l IH]; intros H; [done|..]; cbn in *.
  - assert (j = i) as -> by (apply (H j p); left). rewrite Nat.eqb_refl. cbn. apply IH. intros j' p' ?. apply (H j' p'). by right.
  - apply IH. done.
Qed.

Lemma filter_sub (f : @posted S P -> bool) l e : e ∈ List.filter f l -> e ∈ l.
Proof. rewrite !elem_of_list_In. intros H%filter_In. by destruct H. Qed.

Lemma slots_filter_help f l : (∀ i p, f (PSlot i p) = true) -> slots (List.filter f l) = slots l.
Proof.
  intros Hf. induction l as [|[j p|h sg p] l IH]; [done|..]; cbn.
  - rewrite Hf. cbn. unfold slots in *. cbn. by rewrite IH.
  - destruct (f _); unfold slots in *; cbn; done.
Qed.

Lemma quiet_cons (e : tev) l : match e with TResume _ | TSkip _ | TSusp _ _ | TObs _ | TRet _ => False | _ => True end -> quiet l -> quiet (e :: l).
Proof. intros He Hq x [->|Hx]%elem_of_cons; [done|by apply Hq]. Qed.

Lemma same_help_refl x : same_help x x.
Proof. destruct x as [[[??]?]|]; cbn; done. Qed.
Lemma same_help_trans x y z : same_help x y -> same_help y z -> same_help x z.
Proof. destruct x as [[[??]?]|], y as [[[??]?]|], z as [[[??]?]|]; cbn; intros; destruct_and?; subst; done. Qed.

(** ** Extension of [since] by one event that leaves the rest as it is. *)
Lemma since_log c to s0 s s' l e : since c to s0 s l -> match e with TTick | TDev _ | TDestroy | TResume _ | TSkip _ | TSusp _ _ | TObs _ | TRet _ => False | _ => True end ->
  wtrace s' = e :: wtrace s -> wnow s' = wnow s -> wdev s' = wdev s -> walive s' = walive s -> same_help (whelp s) (whelp s') ->
  wleak s' = wleak s -> wtodo s' = wtodo s -> relay_ok s' -> since c to s0 s' (e :: l).
Proof.
  intros [] He Ht Hn Hd Ha Hh Hl Hto Hr. split; cbn.
  - by rewrite Ht, si_trace0.
  - rewrite Hn, si_now0. by destruct e.
  - rewrite Hd, si_dev0. by destruct e.
  - rewrite Ha. intros Hx. apply si_alive0. intros ?. apply Hx. by right.
  - rewrite Ha. intros [<-|?]%elem_of_cons; [done|auto].
  - apply quiet_cons; [by destruct e|done].
  - by eapply same_help_trans.
  - by rewrite Hl.
  - by rewrite Ha, Hto.
  - done.
Qed.

Lemma since_dev c to s0 s s' l d : since c to s0 s l ->
  wtrace s' = TDev d :: wtrace s -> wnow s' = wnow s -> wdev s' = d -> walive s' = walive s -> same_help (whelp s) (whelp s') ->
  wleak s' = wleak s -> (walive s' = false -> wtodo s' = []) -> relay_ok s' -> since c to s0 s' (TDev d :: l).
Proof.
  intros [] Ht Hn Hd Ha Hh Hl Hto Hr. split; cbn; try done.
  - by rewrite Ht, si_trace0.
  - by rewrite Hn, si_now0.
  - rewrite Ha. intros Hx. apply si_alive0. intros ?. apply Hx. by right.
  - rewrite Ha. intros [?|?]%elem_of_cons; [done|auto].
  - by apply quiet_cons.
  - by eapply same_help_trans.
  - by rewrite Hl.
Qed.

Lemma since_same c to s0 s s' l : since c to s0 s l ->
  wtrace s' = wtrace s -> wnow s' = wnow s -> wdev s' = wdev s -> walive s' = walive s -> same_help (whelp s) (whelp s') ->
  wleak s' = wleak s -> (walive s' = false -> wtodo s' = []) -> relay_ok s' -> since c to s0 s' l.
Proof.
  intros [] Ht Hn Hd Ha Hh Hl Hto Hr. split; try done; try congruence.
  - by rewrite Ha.
  - by rewrite Ha.
  - by eapply same_help_trans.
Qed.

(** ** Emissions while waiting *)
Lemma waiting_ext m c to s0 s s' l a e : waiting m c to s0 s l a -> occurs c e = None -> e ≠ TExpire -> e ≠ TDestroy ->
  waw s' = waw s -> slots (wposted s') = slots (wposted s) -> wshots s' = wshots s -> (is_Some (whelp s) -> is_Some (whelp s')) ->
  waiting m c to s0 s' (e :: l) a.
Proof.
  intros [] He Hx Hx2 Ha Hp Hs Hh. split; try done.
  - congruence.
  - intros H. destruct (wa_conn0 H) as [[??]|?]; [left|by right]. split; [done|by right].
  - intros H. destruct (wa_ctx0 H) as [??]. split; [done|by right].
  - intros H. by apply Hh, wa_help0.
  - rewrite Hp, Hs, emissions_cons, He, app_nil_r. done.
  - destruct (atimer a).
    + destruct wa_timer0 as (? & Hn & ?). split; [done|]. split; [|done]. intros [?|?]%elem_of_cons; done.
    + intros ??. right. by apply wa_timer0.
  - intros [?|?]%elem_of_cons; [by subst|auto].
  - intros ? [?|?]%elem_of_cons; [by subst|auto].
Qed.

Lemma relay_ok_post i p s : relay_ok s -> relay_ok (post (PSlot i p) s).
Proof. intros H j sg q Hin. cbn in Hin. apply elem_of_app in Hin as [?|Hin]; [by eapply H|]. apply elem_of_list_singleton in Hin. done. Qed.

(** The awaited signal occurs while the awaiter is connected. [s1]: the state after logging [e]. *)
Lemma trigger_phase m c to k s0 s s1 l a e p : since c to s0 s1 (e :: l) -> waiting m c to s0 s l a -> wco s1 = CSusp k ->
  occurs c e = Some p -> aconn a = true -> waw s1 = waw s -> wposted s1 = wposted s -> wshots s1 = wshots s ->
  (is_Some (whelp s) -> is_Some (whelp s1)) ->
  phase m c to k s0 (trigger a p s1) (e :: l) ∧ wubs (trigger a p s1) = wubs s1 ∧ wtrace (trigger a p s1) = wtrace s1 ∧
  same_help (whelp s1) (whelp (trigger a p s1)).
Proof.
  intros Hsi Hw Hco Ho Hc Ha Hp Hs Hh. pose proof Hw as []. subst m c. unfold trigger.
  assert (Hem : emissions (asrc a) (e :: l) = emissions (asrc a) l ++ [p]) by (by rewrite emissions_cons, Ho).
  assert (Hne : e ≠ TExpire) by (intros ->; by destruct (asrc a)).
  assert (Hne2 : e ≠ TDestroy) by (intros ->; by destruct (asrc a)).
  destruct (amode a) eqn:Em.
  - cbn. split; [|split; [done|split; [done|apply same_help_refl]]]. split.
    { eapply since_same; [exact Hsi|done..|apply same_help_refl|done|apply Hsi|]. apply relay_ok_post, Hsi. }
    exists a. left. split; [done|]. destruct wa_mod0 as (Hs0 & Hr & Hsl). split; cbn; try done.
    + congruence.
    + intros H. congruence.
    + intros H. destruct (wa_ctx0 H). split; [done|by right].
    + intros H. by apply Hh, wa_help0.
    + split; [congruence|]. split; [done|]. rewrite slots_app, Hp, Hsl, Hem, map_app. done.
    + destruct (atimer a).
      * destruct wa_timer0 as (? & Hn & ?). split; [done|]. split; [|done]. intros [?|?]%elem_of_cons; done.
      * intros ??. right. by apply wa_timer0.
    + intros [?|?]%elem_of_cons; [by subst|auto].
    + intros ? [?|?]%elem_of_cons; [by subst|auto].
  - destruct wa_mod0 as (Hs0 & Hr & Hsl & He). unfold resume. cbn. rewrite Hco. cbn.
    split; [|split; [done|split; [done|apply same_help_refl]]]. split.
    { eapply since_same; [exact Hsi|done..|apply same_help_refl|done|apply Hsi|]. intros j sg q Hin. cbn in Hin. by eapply (si_relay _ _ _ _ _ Hsi). }
    eexists. right. split; [done|]. split; cbn; [done|congruence| |].
    + rewrite Hp, Hsl. intros ?? ?%elem_of_nil. done.
    + cbn [ares awaited]. rewrite Hem, He. split; [done|]. intros [?|?]%elem_of_cons; [done|]. destruct (wa_expire0 H). congruence.
  - cbn. split; [|split; [done|split; [done|apply same_help_refl]]]. split.
    { eapply since_same; [exact Hsi|done..|apply same_help_refl|done|apply Hsi|]. intros j sg q Hin. cbn in Hin. by eapply (si_relay _ _ _ _ _ Hsi). }
    destruct wa_mod0 as (Hsl & [(Hr & Hs0 & He)|(q & ? & ? & ?)]); [|congruence].
    eexists. left. split; [done|]. split; cbn; try done.
    + intros _. right. done.
    + intros H. destruct (wa_ctx0 H). split; [done|by right].
    + intros H. by apply Hh, wa_help0.
    + split; [by rewrite Hp|]. right. exists p. rewrite Hem, He, Hs, Hs0. done.
    + destruct (atimer a).
      * destruct wa_timer0 as (? & Hn & ?). done.
      * intros ??. right. by apply wa_timer0.
    + intros [?|?]%elem_of_cons; [by subst|auto].
    + intros ? [?|?]%elem_of_cons; [by subst|auto].
Qed.

Lemma relay_ok_same s s' : relay_ok s -> wposted s' = wposted s -> same_help (whelp s) (whelp s') -> relay_ok s'.
Proof.
  intros H Hp Hh j sg p. rewrite Hp. intros Hin. destruct (H j sg p Hin) as (h & live & E). rewrite E in Hh.
  destruct (whelp s') as [[[??]?]|]; [|done]. destruct Hh as [-> ->]. eauto.
Qed.

Definition waits m c to k s0 s l : Prop := since c to s0 s l ∧ wco s = CSusp k ∧ ∃ a, waiting m c to s0 s l a.
Lemma waits_phase m c to k s0 s l : waits m c to k s0 s l -> phase m c to k s0 s l.
Proof. intros (? & ? & a & ?). split; [done|]. exists a. by left. Qed.

Lemma waits_log m c to k s0 s s' l e : waits m c to k s0 s l -> occurs c e = None ->
  match e with TTick | TDev _ | TDestroy | TResume _ | TSkip _ | TSusp _ _ | TObs _ | TRet _ | TExpire => False | _ => True end ->
  wtrace s' = e :: wtrace s -> wnow s' = wnow s -> wdev s' = wdev s -> walive s' = walive s -> same_help (whelp s) (whelp s') ->
  wleak s' = wleak s -> wtodo s' = wtodo s -> wposted s' = wposted s -> waw s' = waw s -> wshots s' = wshots s -> wco s' = wco s ->
  waits m c to k s0 s' (e :: l).
Proof.
  intros (Hsi & Hco & a & Hw) Ho He Ht Hn Hd Hal Hh Hl Hto Hp Ha Hs Hc. split; [|split; [congruence|]].
  - eapply since_log; try done; [by destruct e|]. eapply relay_ok_same; [apply Hsi|done|done].
  - exists a. eapply waiting_ext; try done; [by intros ->|by intros ->|by rewrite Hp|].
    intros [[[??]?] E]. rewrite E in Hh. destruct (whelp s') as [[[??]?]|]; [eauto|done].
Qed.

Lemma waits_dev m c to k s0 s s' l d : waits m c to k s0 s l ->
  wtrace s' = TDev d :: wtrace s -> wnow s' = wnow s -> wdev s' = d -> walive s' = walive s -> same_help (whelp s) (whelp s') ->
  wleak s' = wleak s -> (walive s' = false -> wtodo s' = []) -> wposted s' = wposted s -> waw s' = waw s -> wshots s' = wshots s -> wco s' = wco s ->
  waits m c to k s0 s' (TDev d :: l).
Proof.
  intros (Hsi & Hco & a & Hw) Ht Hn Hd Hal Hh Hl Hto Hp Ha Hs Hc. split; [|split; [congruence|]].
  - eapply since_dev; try done. eapply relay_ok_same; [apply Hsi|done|done].
  - exists a. eapply waiting_ext; try done; [by destruct c|by rewrite Hp|].
    intros [[[??]?] E]. rewrite E in Hh. destruct (whelp s') as [[[??]?]|]; [eauto|done].
Qed.

Lemma ready_phase m c to k s0 s l sg p : waits m c to k s0 s l -> wubs s = None -> is_Some (whelp s) ->
  phase m c to k s0 (ready sg p s) (TReady p :: l) ∧ wubs (ready sg p s) = None ∧ (is_dev c -> waits m c to k s0 (ready sg p s) (TReady p :: l)).
Proof.
  intros Hw Hub [[[i h] live] Eh]. unfold ready. rewrite Eh.
  set (s1 := wlog (TReady p) (set_help (Some (i, h, λ x, live x && keeps h sg x)) s)).
  change (wubs s1 = None) in Hub. destruct Hw as (Hsi & Hco & a & Hwa).
  assert (Hhs : same_help (whelp s) (whelp s1)) by (rewrite Eh; done).
  assert (Hs1 : since c to s0 s1 (TReady p :: l)).
  { eapply since_log; [exact Hsi|done..|]. eapply relay_ok_same; [apply Hsi|done|done]. }
  replace (waw s1) with (Some a) by (symmetry; apply Hwa).
  destruct (wa_src _ _ _ _ _ _ _ Hwa). destruct (asrc a) as [mm|] eqn:Es.
  - cut (waits m (FromDev mm) to k s0 s1 (TReady p :: l)); [intros H; split; [by apply waits_phase|done]|].
    split; [done|]. split; [done|]. exists a. eapply waiting_ext; [exact Hwa|done|done|done|done|done|done|done].
  - destruct (aconn a) eqn:Ec.
    + destruct (trigger_phase m FromHelper to k s0 s s1 l a (TReady p) p) as (Hph & Hu & _); try done.
      split; [done|]. split; [congruence|]. by intros [].
    + split; [|split; [done|by intros []]]. split; [done|]. exists a. left. split; [done|].
      destruct Hwa as []. cbn in *. destruct (wa_conn0 Ec) as [[[] _]|[Hm [v Hr]]]. rewrite Hm in *. destruct wa_mod0 as (Hsl & [[? ?]|(q & Hq & ? & Hsh & Hem)]); [congruence|].
      split; cbn; try done.
      * intros _. right. eauto.
      * intros HH. destruct (wa_ctx0 HH) as [[] _].
      * split; [done|]. right. exists q. repeat (split; [done|]). rewrite emissions_cons. cbn.
        destruct (emissions _ l); [done|]. done.
      * destruct (atimer a); [by destruct wa_timer0|]. intros ?; congruence.
      * intros [?|?]%elem_of_cons; [done|auto].
Qed.

Lemma emit_phase m c to k s0 s l sg p : waits m c to k s0 s l -> wubs s = None -> walive s = true ->
  (wubs (emit sg p s) = Some WStaleSlot ∧ existsb (λ f, f sg) (wleak s) = true) ∨
  wubs (emit sg p s) = None ∧ ∃ l', phase m c to k s0 (emit sg p s) (l' ++ l) ∧
    (∃ l'', l' = l'' ++ [TEmit sg p] ∧ ∀ e, e ∈ l'' -> match e with TReady _ | TDev _ => True | _ => False end).
Proof.
  intros Hw Hub Hal. unfold emit. change (wleak (wlog (TEmit sg p) s)) with (wleak s). destruct (existsb _ _) eqn:El; [by left|right].
  destruct Hw as (Hsi & Hco & a & Hwa). destruct (wa_src _ _ _ _ _ _ _ Hwa).
  set (s1 := wlog (TEmit sg p) s). assert (Hs1 : since (asrc a) to s0 s1 (TEmit sg p :: l)).
  { eapply since_log; [exact Hsi|done..|apply same_help_refl|done|done|]. eapply relay_ok_same; [apply Hsi|done|apply same_help_refl]. }
  destruct (asrc a) as [mm|] eqn:Es.
  - (* listening to the object *)
    assert (Hq : ∃ l'', (∀ e, e ∈ l'' -> match e with TReady _ | TDev _ => True | _ => False end) ∧
       wubs (helper_slot sg p s1) = None ∧ walive (helper_slot sg p s1) = true ∧
       since (FromDev mm) to s0 (helper_slot sg p s1) (l'' ++ TEmit sg p :: l) ∧ wco (helper_slot sg p s1) = CSusp k ∧
       waw (helper_slot sg p s1) = Some a ∧ slots (wposted (helper_slot sg p s1)) = slots (wposted s) ∧
       wshots (helper_slot sg p s1) = wshots s).
    { assert (Haw : waw s1 = Some a) by apply Hwa.
      assert (Hrd : ∀ s2 l2 q i h live, whelp s2 = Some (i, h, live) -> since (FromDev mm) to s0 s2 l2 -> wubs s2 = None -> waw s2 = Some a ->
         since (FromDev mm) to s0 (ready sg q s2) (TReady q :: l2) ∧ ready sg q s2 = wlog (TReady q) (set_help (Some (i, h, λ x, live x && keeps h sg x)) s2)).
      { intros s2 l2 q i h live Eh Hsi2 Hu2 Ha2. unfold ready. rewrite Eh.
        change (waw (wlog (TReady q) (set_help (Some (i, h, λ x, live x && keeps h sg x)) s2))) with (waw s2). rewrite Ha2, Es. split; [|done].
        eapply since_log; [exact Hsi2|done..| |done|done|].
        - by rewrite Eh.
        - eapply relay_ok_same; [apply Hsi2|done|by rewrite Eh]. }
      unfold helper_slot. destruct (whelp s1) as [[[i h] live]|] eqn:Eh; [|exists []; split; [by intros ? ?%elem_of_nil|]; done].
      destruct (live sg); [|exists []; split; [by intros ? ?%elem_of_nil|]; done].
      destruct (relay h sg p (wdev s1)) as [[[[|] q] o]|] eqn:Er.
      - exists []. split; [by intros ? ?%elem_of_nil|]. do 2 (split; [done|]). split; [|split; [done|split; [done|]]].
        + eapply since_same; [exact Hs1|done..|apply same_help_refl|done|apply Hs1|]. intros j sg' p' Hin. cbn in Hin.
          apply elem_of_app in Hin as [Hin|Hin]; [by eapply (si_relay _ _ _ _ _ Hs1)|]. apply elem_of_list_singleton in Hin. simplify_eq. exists h, live. exact Eh.
        + cbn. rewrite slots_app. cbn. by rewrite app_nil_r.
      - destruct o as [d'|].
        + edestruct (Hrd (wlog (TDev d') (set_dev d' s1)) (TDev d' :: TEmit sg p :: l) q i h live) as [Hx Hy].
          * done.
          * eapply since_dev; [exact Hs1|done..|apply same_help_refl|done|apply Hs1|]. eapply relay_ok_same; [apply Hs1|done|apply same_help_refl].
          * done.
          * done.
          * rewrite Hy in *. exists [TReady q; TDev d']. split; [|done].
            intros e. rewrite !elem_of_cons. intros [->|[->|?%elem_of_nil]]; done.
        + edestruct (Hrd s1 (TEmit sg p :: l) q i h live) as [Hx Hy]; [done..|].
          rewrite Hy in *. exists [TReady q]. split; [|done]. intros e ->%elem_of_list_singleton. done.
      - exists []. split; [by intros ? ?%elem_of_nil|]. done. }
    destruct Hq as (l'' & Hl'' & Hu2 & Hal2 & Hsi2 & Hco2 & Ha2 & Hp2 & Hsh2). set (s2 := helper_slot sg p s1) in *. clearbody s2.
    rewrite Ha2, Es.
    (* the emissions the awaiter sees *)
    assert (Hoc : ∀ e, e ∈ l'' -> occurs (FromDev mm) e = None) by (intros e He; specialize (Hl'' e He); by destruct e).
    assert (Hem : emissions (FromDev mm) (l'' ++ TEmit sg p :: l) = emissions (FromDev mm) (TEmit sg p :: l)).
    { clear -Hoc. induction l'' as [|e l'' IH]; [done|]. cbn [app]. rewrite emissions_cons, Hoc by (by left). rewrite app_nil_r. apply IH.
      intros x Hx. apply Hoc. by right. }
    rewrite emissions_cons in Hem. cbn [occurs] in Hem.
    assert (Hex : TExpire ∈ l'' ++ TEmit sg p :: l <-> TExpire ∈ l).
    { rewrite elem_of_app, elem_of_cons. split; [intros [Hx|[Hx|Hx]]|]; [by specialize (Hl'' _ Hx)|done|done|auto]. }
    assert (Hde : TDestroy ∈ l -> TDestroy ∈ l'' ++ TEmit sg p :: l) by (rewrite elem_of_app, elem_of_cons; auto).
    assert (Hde2 : TDestroy ∈ l'' ++ TEmit sg p :: l -> TDestroy ∈ l).
    { rewrite elem_of_app, elem_of_cons. intros [Hx|[Hx|Hx]]; [by specialize (Hl'' _ Hx)|done|done]. }
    assert (Hhe : is_Some (whelp s) -> is_Some (whelp s2)).
    { intros [[[i h] live] E]. pose proof (si_help _ _ _ _ _ Hsi2) as H2. pose proof (si_help _ _ _ _ _ Hsi) as H1.
      rewrite E in H1. destruct (whelp s0) as [[[??]?]|]; [|done]. destruct (whelp s2) as [[[??]?]|]; [eauto|done]. }
    assert (Hc1 : aconn a = true \/ (m = MShot ∧ ∃ q, ares a = Some q ∧ aconn a = false)).
    { destruct (aconn a) eqn:Ec; [by left|right]. destruct (wa_conn _ _ _ _ _ _ _ Hwa Ec) as [[_ Hd]|[? [q ?]]]; [|eauto].
      apply (si_dead _ _ _ _ _ Hsi) in Hd. congruence. }
    assert (Hnone : (aconn a = false ∨ mm sg p = None) -> waiting m (FromDev mm) to s0 s2 (l'' ++ TEmit sg p :: l) a).
    { intros Hor. destruct Hwa as []. split; try done.
      - intros Hc. destruct (wa_conn0 Hc) as [[??]|?]; [left; auto|by right].
      - intros Hc. destruct (wa_ctx0 Hc). auto.
      - rewrite Hp2, Hsh2, Hem. destruct Hor as [Hc|Hm].
        + destruct Hc1 as [?|(Hm & q & Hq & _)]; [congruence|]. rewrite Hm in *. destruct wa_mod0 as (? & [[? ?]|(q' & ? & ? & ? & ?)]); [congruence|].
          split; [done|]. right. exists q'. repeat (split; [done|]). by destruct (emissions _ l).
        + rewrite Hm, app_nil_r. done.
      - destruct (atimer a); [|by rewrite Hex]. destruct wa_timer0 as (? & ? & ?). rewrite Hex. done.
      - by rewrite Hex.
      - auto. }
    destruct (aconn a) eqn:Ec; [destruct (mm sg p) as [v|] eqn:Em|].
    + assert (Hw2 : waiting m (FromDev mm) to s0 s (l'' ++ l) a).
      { assert (Hem' : emissions (FromDev mm) (l'' ++ l) = emissions (FromDev mm) l).
        { clear -Hoc. induction l'' as [|e l'' IH]; [done|]. cbn [app]. rewrite emissions_cons, Hoc by (by left). rewrite app_nil_r. apply IH.
          intros x Hx. apply Hoc. by right. }
        assert (Hex' : TExpire ∈ l'' ++ l <-> TExpire ∈ l).
        { rewrite elem_of_app. split; [intros [Hx|Hx]|]; [by specialize (Hl'' _ Hx)|done|auto]. }
        destruct Hwa as []. split; try done.
        - intros Hc. congruence.
        - intros Hc. destruct (wa_ctx0 Hc). rewrite elem_of_app. auto.
        - by rewrite Hem'.
        - destruct (atimer a); [|by rewrite Hex']. destruct wa_timer0 as (? & ? & ?). rewrite Hex'. done.
        - by rewrite Hex'.
        - intros ? Hx. apply wa_gone0; [done|]. apply elem_of_app in Hx as [Hx|Hx]; [by specialize (Hl'' _ Hx)|done]. }
      split.
      * unfold trigger. destruct (amode a); cbn; [done| |done]. unfold resume. cbn. rewrite Hco2. done.
      * exists (l'' ++ [TEmit sg p]). split; [|eauto]. rewrite <- app_assoc. cbn.
        (* the event [e] of trigger_phase need not be the newest one *)
        clear Hnone Hw2. destruct Hwa as [].
        unfold trigger. rewrite wa_mode0. destruct m.
        -- split.
           { eapply since_same; [exact Hsi2|done..|apply same_help_refl|done|apply Hsi2|]. apply relay_ok_post, Hsi2. }
           exists a. left. split; [done|]. destruct wa_mod0 as (Hs0 & Hr & Hsl). split; cbn; try done.
           ++ intros H. congruence.
           ++ intros H. destruct (wa_ctx0 H). auto.
           ++ split; [congruence|]. split; [done|]. rewrite slots_app, Hp2, Hsl, Hem, map_app. done.
           ++ destruct (atimer a); [|by rewrite Hex]. destruct wa_timer0 as (? & ? & ?). rewrite Hex. done.
           ++ by rewrite Hex.
           ++ auto.
        -- destruct wa_mod0 as (Hs0 & Hr & Hsl & He). unfold resume. cbn. rewrite Hco2. split.
           { eapply since_same; [exact Hsi2|done..|apply same_help_refl|done|apply Hsi2|]. intros j sg' q Hin. cbn in Hin. by eapply (si_relay _ _ _ _ _ Hsi2). }
           eexists. right. split; [done|]. split; cbn; [done|congruence| |].
           ++ rewrite Hp2, Hsl. intros ?? ?%elem_of_nil. done.
           ++ cbn [ares awaited]. rewrite Hem, He. split; [done|]. rewrite Hex. intros H. destruct (wa_expire0 H). congruence.
        -- destruct wa_mod0 as (Hsl & [(Hr & Hs0 & He)|(q & ? & ? & ?)]); [|congruence]. split.
           { eapply since_same; [exact Hsi2|done..|apply same_help_refl|done|apply Hsi2|]. intros j sg' q Hin. cbn in Hin. by eapply (si_relay _ _ _ _ _ Hsi2). }
           eexists. left. split; [done|]. split; cbn; try done.
           ++ intros _. right. done.
           ++ intros H. destruct (wa_ctx0 H). auto.
           ++ split; [by rewrite Hp2|]. right. exists v. rewrite Hem, He, Hsh2, Hs0. done.
           ++ destruct (atimer a); [by destruct wa_timer0|]. done.
           ++ by rewrite Hex.
           ++ auto.
    + split; [done|]. exists (l'' ++ [TEmit sg p]). split; [|eauto]. rewrite <- app_assoc. cbn. split; [done|]. exists a. left. split; [done|]. auto.
    + split; [done|]. exists (l'' ++ [TEmit sg p]). split; [|eauto]. rewrite <- app_assoc. cbn. split; [done|]. exists a. left. split; [done|]. auto.
  - (* listening to the helper *)
    assert (Hw1 : waits m FromHelper to k s0 s1 (TEmit sg p :: l)).
    { split; [done|]. split; [done|]. exists a. eapply waiting_ext; [exact Hwa|done|done|done|done|done|done|done]. }
    assert (Hq : ∃ l'', (∀ e, e ∈ l'' -> match e with TReady _ | TDev _ => True | _ => False end) ∧
       wubs (helper_slot sg p s1) = None ∧ phase m FromHelper to k s0 (helper_slot sg p s1) (l'' ++ TEmit sg p :: l) ∧
       (∃ a', waw (helper_slot sg p s1) = Some a' ∧ asrc a' = FromHelper)).
    { assert (Hsrc : ∀ s2 l2, waits m FromHelper to k s0 s2 l2 -> is_Some (whelp s2) -> ∀ q, ∃ a', waw (ready sg q s2) = Some a' ∧ asrc a' = FromHelper).
      { intros s2 l2 (_ & Hc2 & a2 & Hw2) [[[i h] live] Eh] q. unfold ready. rewrite Eh.
        change (waw (wlog (TReady q) (set_help (Some (i, h, λ x, live x && keeps h sg x)) s2))) with (waw s2).
        rewrite (wa_aw _ _ _ _ _ _ _ Hw2), (wa_src _ _ _ _ _ _ _ Hw2).
        destruct (aconn a2); [|exists a2; split; [apply Hw2|apply Hw2]].
        unfold trigger. destruct (amode a2); cbn.
        - exists a2. split; [apply Hw2|apply Hw2].
        - unfold resume. cbn. rewrite Hc2. cbn. eexists. split; [done|]. apply Hw2.
        - eexists. split; [done|]. apply Hw2. }
      unfold helper_slot. destruct (whelp s1) as [[[i h] live]|] eqn:Eh; cycle 1.
      { exists []. split; [by intros ? ?%elem_of_nil|]. split; [done|]. split; [by apply waits_phase|]. exists a. split; [apply Hwa|done]. }
      assert (Hno : ∃ l'', (∀ e, e ∈ l'' -> match e with TReady _ | TDev _ => True | _ => False end) ∧ wubs s1 = None ∧
         phase m FromHelper to k s0 s1 (l'' ++ TEmit sg p :: l) ∧ ∃ a', waw s1 = Some a' ∧ asrc a' = FromHelper).
      { exists []. split; [by intros ? ?%elem_of_nil|]. split; [done|]. split; [by apply waits_phase|]. exists a. split; [apply Hwa|done]. }
      destruct (live sg); [|exact Hno]. destruct (relay h sg p (wdev s1)) as [[[[|] q] o]|] eqn:Er; [| |exact Hno].
      - exists []. split; [by intros ? ?%elem_of_nil|]. split; [done|]. split; [|exists a; split; [apply Hwa|done]].
        apply waits_phase. destruct Hw1 as (_ & _ & a1 & Hwa1). split; [|split; [done|]].
        + eapply since_same; [exact Hs1|done..|apply same_help_refl|done|apply Hs1|]. intros j sg' p' Hin. cbn in Hin.
          apply elem_of_app in Hin as [Hin|Hin]; [by eapply (si_relay _ _ _ _ _ Hs1)|]. apply elem_of_list_singleton in Hin. simplify_eq. exists h, live. exact Eh.
        + exists a1. destruct Hwa1 as []. split; try done. cbn. rewrite slots_app. cbn. unfold slots at 2 4 6. cbn. rewrite app_nil_r. done.
      - destruct o as [d'|].
        + assert (Hw2 : waits m FromHelper to k s0 (wlog (TDev d') (set_dev d' s1)) (TDev d' :: TEmit sg p :: l)).
          { eapply waits_dev; [exact Hw1|done..|apply same_help_refl|done|apply Hs1|done|done|done|done]. }
          destruct (ready_phase _ _ _ _ _ _ _ sg q Hw2) as (Hph & Hu & _); [done|exists (i, h, live); exact Eh|].
          exists [TReady q; TDev d']. split; [intros e; rewrite !elem_of_cons; intros [->|[->|?%elem_of_nil]]; done|]. split; [done|]. split; [done|].
          eapply Hsrc; [exact Hw2|exists (i, h, live); exact Eh].
        + destruct (ready_phase _ _ _ _ _ _ _ sg q Hw1) as (Hph & Hu & _); [done|rewrite Eh; eauto|].
          exists [TReady q]. split; [intros e ->%elem_of_list_singleton; done|]. split; [done|]. split; [done|].
          eapply Hsrc; [exact Hw1|rewrite Eh; eauto]. }
    destruct Hq as (l'' & Hl'' & Hu & Hph & a' & Ha' & Hs'). rewrite Ha', Hs'. split; [done|].
    exists (l'' ++ [TEmit sg p]). split; [|eauto]. by rewrite <- app_assoc.
Qed.
End inv.
