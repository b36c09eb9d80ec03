(** * Waits that never end. *)
From stdpp Require Import list.
From Verif Require Import QtModel QtSpec QtInv QtAwait QtReach QtWrap QtTrace QtBehave QtCall.

Section stuck.
Context {D S P O A : Type}.
Notation wstate := (@wstate D S P O A).
Notation wprog := (@wprog D S P O).
Notation tev := (@tev D S P O A).

(** The coroutine waits without timeout for something that does not occur as long as the object only emits signals in [OK]. *)
Record stuck (OK : S -> P -> Prop) (s : wstate) : Prop := Stuck {
  st_ub : wubs s = None; st_co : ∃ k, wco s = CSusp k; st_posted : wposted s = []; st_shots : wshots s = 0; st_leak : noleak s;
  st_todo : ∀ sg p, (sg, p) ∈ wtodo s -> OK sg p;
  st_aw : ∃ a, waw s = Some a ∧ atimer a = None ∧ match asrc a with FromDev m => ∀ sg p, OK sg p -> aconn a = true -> m sg p = None | FromHelper => True end;
  st_help : ∀ i h live sg p d, whelp s = Some (i, h, live) -> OK sg p -> live sg = true -> relay h sg p d = None }.

Lemma stuck_emit OK (s : wstate) sg p : stuck OK s -> OK sg p -> emit sg p s = wlog (TEmit sg p) s.
Proof.
  intros [] HOK. unfold emit. rewrite st_leak0.
  assert (helper_slot sg p (wlog (TEmit sg p) s) = wlog (TEmit sg p) s) as ->.
  { unfold helper_slot. cbn [whelp wlog]. destruct (whelp s) as [[[i h] live]|] eqn:E; [|done]. destruct (live sg) eqn:El; [|done]. by erewrite st_help0. }
  destruct st_aw0 as (a & Ha & _ & Hs). cbn [waw wlog]. rewrite Ha. destruct (asrc a) as [m|]; [|done]. destruct (aconn a) eqn:Ec; [|done]. by rewrite Hs.
Qed.
Lemma stuck_step OK (s s' : wstate) : stuck OK s -> step s = Next s' -> stuck OK s' ∧ ∃ e, wtrace s' = e :: wtrace s ∧ match e with TEmit sg p => OK sg p | _ => False end.
Proof.
  intros Hs. pose proof Hs as []. destruct st_co0 as [k Hk]. unfold step. rewrite st_ub0, Hk. destruct (wtodo s) as [|[sg p] q] eqn:Et; [done|].
  intros [= <-]. assert (Hok : OK sg p) by (apply st_todo0; left).
  assert (Hq : stuck OK (set_todo q s)).
  { split; try done; [eauto|]. intros sg' p' Hin. apply st_todo0. by right. }
  rewrite (stuck_emit _ _ _ _ Hq Hok). split; [destruct Hq; split; done|]. eexists. split; [done|done].
Qed.
Lemma stuck_env (OK : S -> P -> Prop) (denv : D -> list (S * P) -> D -> Prop) (s s' : wstate) e : (∀ d ems d' sg p, denv d ems d' -> (sg, p) ∈ ems -> OK sg p) -> stuck OK s -> step s = Idle -> env_step e s = Next s' ->
  match e with EvDev d ems => denv (wdev s) ems d | _ => True end ->
  stuck OK s' ∧ ∃ e', wtrace s' = e' :: wtrace s ∧ match e' with TDev _ | TTick | TDestroy => True | _ => False end.
Proof.
  intros HOK Hs Hid He Hd. pose proof Hs as []. destruct st_aw0 as (a & Ha & Ht & Hm). destruct e as [d ems| | | | |]; unfold env_step in He; cbv zeta in He.
  - destruct (walive s); [|done]. injection He as <-. split; [|by eexists]. split; try done; [|eauto]. intros sg p Hin. by eapply HOK.
  - destruct (walive s); [|done]. injection He as <-. split; [|by eexists]. split; try done; cbn.
    + rewrite Ha. destruct (asrc a) eqn:Es; eexists; (split; [done|]); cbn; rewrite ?Es; done.
    + intros i h live sg p d'. destruct (whelp s) as [[[??]?]|]; [|done]. intros [= <- <- <-]. done.
  - by rewrite st_posted0 in He.
  - by rewrite st_shots0 in He.
  - by rewrite Ha, Ht in He.
  - injection He as <-. split; [|by eexists]. split; try done; eauto.
Qed.

(** Such a wait goes on for ever. *)
Lemma stuck_exec (OK : S -> P -> Prop) (denv : D -> list (S * P) -> D -> Prop) (s s' : wstate) : (∀ d ems d' sg p, denv d ems d' -> (sg, p) ∈ ems -> OK sg p) -> stuck OK s -> exec denv s s' ->
  stuck OK s' ∧ ∃ l, wtrace s' = l ++ wtrace s ∧ quiet l.
Proof.
  intros HOK Hs Hx. induction Hx as [s|s s1 s' Hx IH Hst|s s1 e s' Hx IH Hid Hu He Hd].
  - split; [done|]. exists []. split; [done|]. by intros ? ?%elem_of_nil.
  - destruct (IH Hs) as (Hs1 & l & Hl & Hq). destruct (stuck_step _ _ _ Hs1 Hst) as (Hs' & e & Ht & Hm). split; [done|]. exists (e :: l). split; [by rewrite Ht, Hl|].
    intros x [->|?]%elem_of_cons; [by destruct e|by apply Hq].
  - destruct (IH Hs) as (Hs1 & l & Hl & Hq). destruct (stuck_env _ _ _ _ _ HOK Hs1 Hid He Hd) as (Hs' & e' & Ht & Hm). split; [done|]. exists (e' :: l). split; [by rewrite Ht, Hl|].
    intros x [->|?]%elem_of_cons; [by destruct e'|by apply Hq].
Qed.
End stuck.
