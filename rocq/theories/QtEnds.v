(** * Progress: when a wait is over, the event loop makes the coroutine continue. *)
From stdpp Require Import list.
From Verif Require Import QtModel QtSpec QtInv QtAwait QtReach QtWrap QtTrace QtCall.

Section ends.
Context {D S P O A : Type}.
Notation wstate := (@wstate D S P O A).
Notation wprog := (@wprog D S P O).
Notation tev := (@tev D S P O A).
Notation src := (@src S P).
#[local] Arguments slots : simpl never.
#[local] Arguments emissions : simpl never.
#[local] Arguments relays : simpl never.
#[local] Arguments rposts : simpl never.

Lemma turns_trans (s s1 s2 : wstate) : turns s s1 -> turns s1 s2 -> turns s s2.
Proof. induction 1; intros; [done| |]; [eapply turns_step|eapply turns_env]; eauto. Qed.
Lemma turns_exec denv (s s' : wstate) : turns s s' -> exec denv s s'.
Proof.
  induction 1 as [|s s1 s' Hs _ IH|s e s1 s' Hi Hu He Hk _ IH]; [constructor|..].
  - eapply exec_trans; [|exact IH]. eapply exec_step; [constructor|done].
  - eapply exec_trans; [|exact IH]. eapply exec_env; [constructor|done..|]. by destruct e.
Qed.

Fixpoint weight (l : list (@posted S P)) : nat := match l with [] => 0 | PRelay _ _ _ :: l => 2 + weight l | PSlot _ _ :: l => 1 + weight l end.
Lemma weight_app l l' : weight (l ++ l') = weight l + weight l'.
Proof. induction l as [|e l IH]; [done|]. destruct e; cbn; lia. Qed.

(** Delivery of the posted events resumes a coroutine for which one is queued. *)
Lemma drain (c : src) to k (s0 : wstate) n : ∀ (s : wstate) l, weight (wposted s) ≤ n -> phase MQueued c to k s0 s l -> wubs s = None -> step s = Idle ->
  (emissions c l ≠ [] ∨ (¬ is_dev c ∧ wposted s ≠ [])) -> ∃ s' v l', turns s s' ∧ resumed MQueued c to k s0 s' (l' ++ l) v.
Proof.
  induction n as [|n IH]; intros s l Hw Hp Hu Hid Hor; pose proof Hp as [Hsi [a [[Hco Hwa]|[Hco _]]]]; try (unfold step in Hid; by rewrite Hu, Hco in Hid).
  - exfalso. destruct (wposted s) as [|e q] eqn:E; [|cbn in Hw; destruct e; lia]. destruct (wa_mod _ _ _ _ _ _ _ Hwa) as (_ & _ & Hs).
    rewrite E in Hs. destruct Hor as [?|[_ ?]]; [|done]. by destruct (emissions c l).
  - pose proof (wa_mod _ _ _ _ _ _ _ Hwa) as (_ & Hres & Hs).
    destruct (wposted s) as [|e q] eqn:E. { exfalso. destruct Hor as [?|[_ ?]]; [|done]. by destruct (emissions c l). }
    destruct (env_step EvPosted s) as [s1|] eqn:E1; cycle 1.
    { unfold env_step in E1. rewrite E in E1. destruct e; cbn in E1; [destruct (waw s); [destruct (decide _)|]|destruct (whelp s) as [[[??]?]|]; [destruct (decide _)|]]; done. }
    destruct (phase_env _ _ _ _ _ _ _ _ _ Hp Hu Hid E1) as (Hu1 & l' & Hp1).
    assert (Hidle : ∀ k', wco s1 = CSusp k' -> wtodo s1 = wtodo s -> step s1 = Idle).
    { intros k' Hc1 Ht. unfold step in *. rewrite Hu1, Hc1. rewrite Hu, Hco in Hid. rewrite Ht. by destruct (wtodo s) as [|[??]?]. }
    destruct e as [i p|i sg p].
    + (* the slot of the awaiter *)
      assert (Hc1 : wco s1 = CBack k).
      { unfold env_step in E1. rewrite E in E1. cbn in E1. rewrite (wa_aw _ _ _ _ _ _ _ Hwa) in E1. unfold slots in Hs. cbn in Hs.
        destruct (emissions c l) as [|p' em]; [done|]. cbn in Hs. injection Hs as Hi _ _. rewrite decide_True in E1 by done. injection E1 as <-. unfold resume. cbn. by rewrite Hco. }
      destruct (step s1) as [s2|] eqn:E2; [|unfold step in E2; by rewrite Hu1, Hc1 in E2].
      destruct (phase_step _ _ _ _ _ _ _ _ Hp1 Hu1 E2) as [(Hx & _)|[(_ & l2 & Hp2)|(v & Hre)]].
      * exfalso. unfold step in E2. rewrite Hu1, Hc1 in E2. injection E2 as <-. cbn in Hx. unfold drop_awaiter in Hx. destruct (waw s1); cbn in Hx; congruence.
      * exfalso. unfold step in E2. rewrite Hu1, Hc1 in E2. injection E2 as <-. destruct (phase_co _ _ _ _ _ _ _ Hp2) as [Hx|Hx]; done.
      * exists s2, v, l'. split; [|done]. eapply turns_env; [done|done|exact E1|done|]. eapply turns_step; [done|constructor].
    + (* a slot of the helper *)
      unfold env_step in E1. rewrite E in E1. cbn in E1. destruct (si_relay _ _ _ _ _ Hsi i sg p) as (h & live & Eh); [rewrite E; left|].
      rewrite Eh, decide_True in E1 by done. injection E1 as E1.
      assert (Hsh : wposted s1 = q ++ match c with FromDev _ => [] | FromHelper => [PSlot (aid a) p] end ∧ wco s1 = CSusp k ∧ wtodo s1 = wtodo s ∧ ∃ x, l' ++ l = x ++ l).
      { rewrite <- E1. unfold ready. cbn [whelp set_posted]. rewrite Eh. set (s2 := wlog _ _). change (waw s2) with (waw s). rewrite (wa_aw _ _ _ _ _ _ _ Hwa), (wa_src _ _ _ _ _ _ _ Hwa).
        destruct c as [mm|]; cbn.
        - rewrite app_nil_r. split; [done|]. split; [done|]. split; [done|]. by eexists.
        - assert (aconn a = true) as ->.
          { destruct (aconn a) eqn:Ec; [done|]. by destruct (wa_conn _ _ _ _ _ _ _ Hwa Ec) as [[[] _]|[? _]]. }
          unfold trigger. rewrite (wa_mode _ _ _ _ _ _ _ Hwa). cbn. split; [done|]. split; [done|]. split; [done|]. by eexists. }
      destruct Hsh as (Hpo & Hc1 & Hto & _).
      destruct (IH s1 (l' ++ l)) as (s' & v & l2 & Ht & Hre).
      * rewrite Hpo, weight_app. cbn in Hw. destruct c; cbn; lia.
      * done.
      * done.
      * by eapply Hidle.
      * destruct Hor as [He|[Hd _]].
        -- left. rewrite emissions_app. by destruct (emissions c l).
        -- right. split; [done|]. rewrite Hpo. destruct c; [by exfalso; apply Hd|]. by destruct q.
      * exists s', v, (l2 ++ l'). rewrite <- app_assoc. split; [|done]. apply (turns_env _ EvPosted s1 s'); [done|done| |done|exact Ht]. unfold env_step. rewrite E. cbn. rewrite Eh, decide_True by done. by rewrite E1.
Qed.

(** The timer. *)
Lemma expire (c : src) n k (s0 s : wstate) l : phase MQueued c (Some n) k s0 s l -> wubs s = None -> step s = Idle ->
  (is_dev c -> TDestroy ∉ l) -> n ≤ elapsed l -> ∃ s', turns s s' ∧ resumed MQueued c (Some n) k s0 s' (TExpire :: l) None.
Proof.
  intros Hp Hus Hid Hnd Hn. pose proof Hp as [Hsi [a [[Hco Hwa]|[Hco Hba]]]]; cycle 1.
  { exfalso. unfold step in Hid. by rewrite Hus, Hco in Hid. }
  pose proof Hwa as [].
  assert (Hctx : actx a = true).
  { destruct (actx a) eqn:E; [done|]. destruct (wa_ctx eq_refl) as [? ?]. by exfalso; apply Hnd. }
  destruct (atimer a) as [t|] eqn:Et; cycle 1.
  { exfalso. destruct (wa_expire (wa_timer eq_refl ltac:(eauto))). congruence. }
  destruct wa_timer as (_ & Hne & n' & [= ?] & Htn). subst n'.
  assert (Hle : t ≤ wnow s) by (pose proof (si_now _ _ _ _ _ Hsi); lia).
  destruct (env_step EvTimer s) as [s1|] eqn:E1; cycle 1.
  { exfalso. unfold env_step in E1. rewrite wa_aw, Et, decide_True in E1 by done. done. }
  destruct (phase_env _ _ _ _ _ _ _ _ _ Hp Hus Hid E1) as (Hu1 & l' & Hp1). pose proof E1 as E1'.
  unfold env_step in E1. rewrite wa_aw, Et, Hctx, decide_True in E1 by done. unfold resume in E1. cbn in E1. rewrite Hco in E1. injection E1 as E1.
  destruct (step s1) as [s2|] eqn:E2; cycle 1.
  { exfalso. subst s1. unfold step in E2. cbn in E2. rewrite Hus in E2. done. }
  destruct (phase_step _ _ _ _ _ _ _ _ Hp1 Hu1 E2) as [(Hx1 & _)|[(Hx1 & l2 & Hp2)|(v & Hre)]].
  - exfalso. subst s1. unfold step in E2. cbn in E2. rewrite Hus in E2. injection E2 as <-. cbn in Hx1. unfold drop_awaiter in Hx1. cbn in Hx1. congruence.
  - exfalso. subst s1. unfold step in E2. cbn in E2. rewrite Hus in E2. injection E2 as <-. destruct (phase_co _ _ _ _ _ _ _ Hp2) as [H|H]; cbn in H; done.
  - destruct wa_mod as (_ & Hres & _).
    assert (v = None ∧ l' ++ l = TExpire :: l) as [-> El].
    { destruct Hp1 as [Hsi1 _]. pose proof (si_trace _ _ _ _ _ Hsi1) as Ht1. pose proof (re_trace _ _ _ _ _ _ _ _ Hre) as Htr. subst s1. unfold step in E2. cbn in E2. rewrite Hus, Hres in E2. injection E2 as <-.
      unfold drop_awaiter in *. cbn in *. split; [by injection Htr|]. rewrite (si_trace _ _ _ _ _ Hsi) in Ht1. symmetry. apply (app_inv_tail (TSusp c (Some n) :: wtrace s0)). cbn. done. }
    rewrite El in Hre. exists s2. split; [|done]. eapply turns_env; [done|done|exact E1'|done|]. eapply turns_step; [done|constructor].
Qed.

(** ** Calls that end. *)
Definition ended {B} (k : B -> wprog A) (s : wstate) : Prop := (∃ b, wco s = CRun (k b)) ∨ is_Some (wubs s).

Definition cends {B} denv (s0 : wstate) (p : (B -> wprog A) -> wprog A) (W : list tev -> Prop) : Prop :=
  good s0 -> ∀ k s l, exec denv (set_co (CRun (p k)) s0) s -> step s = Idle -> wubs s = None -> wtrace s = l ++ wtrace s0 -> W l ->
    (∃ s2, exec denv (set_co (CRun (p k)) s0) s2 ∧ exec denv s2 s ∧ ended k s2) ∨ ∃ s', turns s s' ∧ ended k s'.

Lemma ub_stuck denv (s s' : wstate) u : wubs s = Some u -> exec denv s s' -> s' = s.
Proof.
  intros Hu Hx. destruct (exec_inv _ _ _ Hx) as [?|[(s1 & Hst & _)|(e & s1 & _ & Hu' & _)]]; [done| |congruence].
  unfold step in Hst. by rewrite Hu in Hst.
Qed.
Lemma cends_call {B} denv s0 (p : (B -> wprog A) -> wprog A) W : reach denv s0 -> wubs s0 = None -> noleak s0 -> cends denv s0 p W -> call_ends denv s0 p W.
Proof.
  intros Hr Hu Hl H k s l Hc Hx Hid Hus Ht HW. assert (Hg : good s0) by (split; [by eapply reach_clean|done]).
  specialize (H Hg k s l). rewrite <- (set_co_same _ _ Hc) in H. destruct (H Hx Hid Hus Ht HW) as [(s2 & Hx1 & Hx2 & [[b Hb]|[u Hu2]])|?]; [| |by right].
  - left. by exists s2, b.
  - rewrite (ub_stuck _ _ _ _ Hu2 Hx2) in Hus. congruence.
Qed.

(** A piece of code that does not wait. *)
Inductive imm {B} (k : B -> wprog A) : wstate -> Prop :=
  | imm_done s : ended k s -> imm k s
  | imm_step s s1 : step s = Next s1 -> imm k s1 -> imm k s.
Lemma imm_turns {B} (k : B -> wprog A) s : imm k s -> ∃ s', turns s s' ∧ ended k s'.
Proof. induction 1 as [s|s s1 Hs _ (s' & ? & ?)]; [exists s; split; [constructor|done]|]. exists s'. split; [by eapply turns_step|done]. Qed.
Lemma imm_exec {B} (k : B -> wprog A) denv s s' : imm k s -> exec denv s s' -> step s' = Idle -> ∃ s2, exec denv s s2 ∧ exec denv s2 s' ∧ ended k s2.
Proof.
  intros Hi. revert s'. induction Hi as [s|s s1 Hs _ IH]; intros s' Hx Hid.
  - exists s. split; [constructor|done].
  - destruct (exec_inv _ _ _ Hx) as [->|[(s1' & Hst' & Hx')|(e & s1' & Hst' & _)]]; [congruence| |congruence].
    rewrite Hs in Hst'. injection Hst' as <-. destruct (IH s' Hx' Hid) as (s2 & ? & ? & ?). exists s2. split; [|done]. eapply exec_trans; [|done]. eapply exec_step; [constructor|done].
Qed.

Lemma cends_imm {B} denv s0 (p : (B -> wprog A) -> wprog A) W : (∀ k, good s0 -> imm k (set_co (CRun (p k)) s0)) -> cends denv s0 p W.
Proof. intros H Hg k s l Hx Hid Hu Ht _. left. eapply imm_exec; [by apply H|done|done]. Qed.

Lemma cends_step {B} denv s0 s1 (p p' : (B -> wprog A) -> wprog A) W :
  (good s0 -> ∀ k, step (set_co (CRun (p k)) s0) = Next (set_co (CRun (p' k)) s1)) -> (good s0 -> good s1) -> wtrace s1 = wtrace s0 ->
  cends denv s1 p' W -> cends denv s0 p W.
Proof.
  intros Hst Hgg Ht0 H Hg k s l Hx Hid Hu Ht HW. destruct (exec_inv _ _ _ Hx) as [->|[(s1' & Hst' & Hx')|(e & s1' & Hst' & _)]]; cycle 2.
  { rewrite (Hst Hg) in Hst'. done. }
  { by rewrite (Hst Hg) in Hid. }
  rewrite (Hst Hg) in Hst'. injection Hst' as <-. destruct (H (Hgg Hg) k s l Hx' Hid Hu) as [(s2 & Hx1 & Hx2 & He)|?]; [by rewrite Ht0|done| |by right].
  left. exists s2. split; [|done]. eapply exec_trans; [|exact Hx1]. eapply exec_step; [constructor|by apply Hst].
Qed.
Lemma cends_get {B} denv s0 (f : D -> (B -> wprog A) -> wprog A) W : walive s0 = true ->
  cends denv s0 (f (wdev s0)) W -> cends denv s0 (λ k, WGet (λ d, f d k)) W.
Proof. intros Ha. apply cends_step; try done. intros (_ & Hu & _) k. unfold step. cbn. rewrite Hu, Ha. done. Qed.
Lemma cends_alive {B} denv s0 (f : bool -> (B -> wprog A) -> wprog A) W :
  cends denv s0 (f (walive s0)) W -> cends denv s0 (λ k, WAlive (λ d, f d k)) W.
Proof. apply cends_step; try done. intros (_ & Hu & _) k. unfold step. cbn. rewrite Hu. done. Qed.

(** Then something that does not wait. *)
Lemma ended_imm {B C} denv (k : C -> wprog A) (f : B -> (C -> wprog A) -> wprog A) (s s' : wstate) :
  (∀ b s2, wco s2 = CRun (f b k) -> wubs s2 = None -> imm k s2) -> ended (λ b, f b k) s -> exec denv s s' -> step s' = Idle -> wubs s' = None ->
  ∃ s2, exec denv s s2 ∧ exec denv s2 s' ∧ ended k s2.
Proof.
  intros H [[b Hc]|[u Hu]] Hx Hid Hus'.
  - destruct (wubs s) as [u|] eqn:Eu; [|eapply imm_exec; [by eapply H|done|done]].
    exists s. split; [constructor|]. split; [done|]. right. eauto.
  - exists s. split; [constructor|]. split; [done|]. right. eauto.
Qed.
Lemma cends_then {B C} denv s0 (p : (B -> wprog A) -> wprog A) (f : B -> (C -> wprog A) -> wprog A) W : cends denv s0 p W ->
  (∀ k b s2, wco s2 = CRun (f b k) -> wubs s2 = None -> imm k s2) -> cends denv s0 (λ k, p (λ b, f b k)) W.
Proof.
  intros H Hf Hg k s l Hx Hid Hu Ht HW. destruct (H Hg (λ b, f b k) s l Hx Hid Hu Ht HW) as [(s2 & Hx1 & Hx2 & He)|(s' & Ht' & He)].
  - left. destruct (ended_imm denv k f s2 s) as (s3 & ? & ? & ?); [intros b s'; apply Hf|done..|]. exists s3. split; [by eapply exec_trans|done].
  - right. destruct He as [[b Hc]|[u Hus]]; [|exists s'; split; [done|right; eauto]].
    destruct (wubs s') as [u|] eqn:Eu; [exists s'; split; [done|right; eauto]|].
    destruct (imm_turns k s') as (s3 & ? & ?); [by eapply Hf|]. exists s3. split; [by eapply turns_trans|done].
Qed.

Lemma elapsed_app (l l' : list tev) : elapsed (l ++ l') = elapsed l + elapsed l'.
Proof. induction l as [|e l IH]; [done|]. cbn. destruct e; cbn; congruence. Qed.

(** What ends a wait on the object itself. *)
Lemma cends_await denv mm to s0 : walive s0 = true ->
  cends denv s0 (λ k, WAwait MQueued (FromDev mm) to k)
    (λ l, emissions (FromDev mm) l ≠ [] ∨ ∃ n, to = Some n ∧ n ≤ elapsed l ∧ TDestroy ∉ l).
Proof.
  intros Ha (Hcl & Hu & Hl) k s l Hx Hid Hus Ht HW.
  destruct (await_exec denv MQueued (FromDev mm) to k (set_co (CRun (WAwait MQueued (FromDev mm) to k)) s0) s) as [->|[[_ [l' Hp]]|(l' & v & s2 & Hre & Hx1 & Hx2)]]; try done.
  - destruct Hcl. split; done.
  - unfold step in Hid. cbn in Hid. rewrite Hu in Hid. done.
  - assert (l = l' ++ [TSusp (FromDev mm) to]) as ->.
    { destruct Hp as [Hsi _]. rewrite (si_trace _ _ _ _ _ Hsi) in Ht. symmetry. apply (app_inv_tail (wtrace s0)). by rewrite <- app_assoc. }
    right. destruct HW as [He|(n & Hto & Hn & Hd)].
    + destruct (drain _ _ _ _ (weight (wposted s)) s l' (le_n _) Hp Hus Hid) as (s' & v & x & Htu & Hre).
      * left. rewrite emissions_app in He. done.
      * exists s'. split; [done|]. left. exists v. apply Hre.
    + subst to. destruct (expire _ _ _ _ _ _ Hp Hus Hid) as (s' & Htu & Hre).
      * intros _ ?. apply Hd. apply elem_of_app. by left.
      * rewrite elapsed_app in Hn. cbn in Hn. lia.
      * exists s'. split; [done|]. left. exists None. apply Hre.
  - left. exists s2. split; [done|]. split; [done|]. left. exists v. apply Hre.
Qed.

(** What ends a wait through a helper. *)
Lemma cends_helper_await denv h to sh : hready h sh ->
  cends denv sh (λ k, WAwait MQueued FromHelper to (λ r, WDrop (k r))) (λ l, relays h (wdev sh) l ≠ [] ∨ ∃ n, to = Some n ∧ n ≤ elapsed l).
Proof.
  intros (i0 & live0 & Eh0 & Hlv0 & Hrp0) Hg0. pose proof Hg0 as (Hcl0 & Hu & Hl). revert Hg0.
  apply (cends_then denv sh (λ k, WAwait MQueued FromHelper to k) (λ r k, WDrop (k r))).
  - intros (Hcl & _ & _) k s l Hx Hid Hus Ht HW. set (si := set_co (CRun (WAwait MQueued FromHelper to k)) sh) in *.
    assert (Hcli : clean si) by (destruct Hcl; split; done).
    assert (Hubi : wubs si = None) by exact Hu.
    destruct (await_phase MQueued FromHelper to k si) as (s1 & Hst & Hu1 & Hph); try done.
    destruct (exec_inv _ _ _ Hx) as [->|[(s1' & Hst' & Hx')|(e & s1' & Hst' & _)]]; [congruence| |congruence].
    rewrite Hst in Hst'. injection Hst' as <-.
    assert (Hi : hinv h (wdev sh) (TSusp FromHelper to :: wtrace si) s1).
    { unfold step in Hst. rewrite Hubi in Hst. cbn in Hst. unfold await in Hst. change (whelp si) with (whelp sh) in Hst. rewrite Eh0 in Hst. injection Hst as <-. intros l0 Hl'. cbn in Hl'.
      assert (l0 = []) as ->. { apply (app_inv_tail (TSusp FromHelper to :: wtrace sh)). by symmetry. }
      left. split; [done|]. split; [done|]. split; [by exists i0, live0|]. split; [by intros ? ? ?%elem_of_nil|]. exact Hrp0. }
    assert (Hlh : noleak si) by exact Hl.
    destruct (helper_exec denv h (wdev sh) _ _ _ _ _ _ _ s eq_refl Hph Hu1 Hlh Hi Hx') as [(_ & Hi2 & l' & Hp)|(l' & v & s2 & Hre & Hi2 & Hx1 & Hx2)]; rewrite app_nil_r in *.
    + assert (l = l' ++ [TSusp FromHelper to]) as ->.
      { destruct Hp as [Hsi _]. rewrite (si_trace _ _ _ _ _ Hsi) in Ht. symmetry. apply (app_inv_tail (wtrace sh)). by rewrite <- app_assoc. }
      right. destruct HW as [He|(n & Hto & Hn)].
      * destruct (drain _ _ _ _ (weight (wposted s)) s l' (le_n _) Hp Hus Hid) as (s' & v & x & Htu & Hre).
        -- destruct (Hi2 l') as [(_ & Hem & _ & _ & Hr)|[p Hf]]; [destruct Hp as [Hsi _]; apply Hsi| |].
           ++ right. split; [by intros []|]. intros Hpo. rewrite Hpo in Hr. apply He. rewrite relays_app. cbn. destruct (relays h (wdev sh) l'); done.
           ++ left. intros Hem. apply first_ready_head in Hf. by rewrite Hem in Hf.
        -- exists s'. split; [done|]. left. exists v. apply Hre.
      * subst to. destruct (expire _ _ _ _ _ _ Hp Hus Hid) as (s' & Htu & Hre).
        -- intros [].
        -- rewrite elapsed_app in Hn. cbn in Hn. lia.
        -- exists s'. split; [done|]. left. exists None. apply Hre.
    + left. exists s2. split; [eapply exec_trans; [eapply exec_step; [constructor|exact Hst]|exact Hx1]|]. split; [done|]. left. exists v. apply Hre.
  - intros k b s2 Hc2 Hu2. eapply imm_step; [unfold step; rewrite Hu2, Hc2; reflexivity|]. apply imm_done. unfold drop_helper. cbn.
    destruct (whelp s2) as [[[??]?]|]; [left; by exists b|right; cbn; eauto].
Qed.
Lemma cends_helper denv h to s0 : walive s0 = true -> whelp s0 = None ->
  cends denv s0 (λ k, qCoro_helper h to k) (λ l, relays h (wdev s0) l ≠ [] ∨ ∃ n, to = Some n ∧ n ≤ elapsed l).
Proof.
  intros Ha Hh Hg0. pose proof Hg0 as (Hcl0 & Hu & Hl). revert Hg0. unfold qCoro_helper.
  apply (cends_step denv s0 (with_helper h s0) _ (λ k, WAwait MQueued FromHelper to (λ r, WDrop (k r)))); try done.
  { intros _ k. by apply with_helper_step. }
  { intros (? & ? & ?). split; [by apply with_helper_clean|done]. }
  apply (cends_helper_await denv h to (with_helper h s0)). by apply hready_new.
Qed.
End ends.
