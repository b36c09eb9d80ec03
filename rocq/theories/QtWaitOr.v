(** * A wait through a helper, seen when no code is running: it is over, or the posted events end it. *)
From stdpp Require Import list.
From Verif Require Import QtModel QtSpec QtInv QtAwait QtReach QtWrap QtTrace QtBehave QtCall QtEnds QtCall2.

Section wait_or.
Context {D S P O A : Type}.
Notation wstate := (@wstate D S P O A).
Notation wprog := (@wprog D S P O).
Notation tev := (@tev D S P O A).
Notation src := (@src S P).
#[local] Arguments slots : simpl never.
#[local] Arguments emissions : simpl never.
#[local] Arguments relays : simpl never.

(** The state after the wait and the destruction of the helper. *)
Record after_wait (h : @helper D S P) to (k : option P -> wprog A) (s0 s : wstate) (l : list tev) (v : option P) : Prop := AfterWait {
  af_co : wco s = CRun (k v); af_good : good s; af_trace : wtrace s = l ++ wtrace s0; af_wait : helper_wait h (wdev s0) to l v; af_kept : kept s0 s l }.

Lemma after_drop h to (k : option P -> wprog A) (sh s2 : wstate) i0 live0 l v : good sh -> whelp sh = Some (i0, h, live0) -> (∀ x, leaky h x = false) ->
  resumed MQueued FromHelper to (λ r, WDrop (k r)) (set_co (CRun (WAwait MQueued FromHelper to (λ r, WDrop (k r)))) sh) s2 l v -> helper_hist h (wdev sh) l ->
  step s2 = Next (drop_helper (set_co (CRun (k v)) s2)) ∧ after_wait h to k sh (drop_helper (set_co (CRun (k v)) s2)) (TResume v :: l ++ [TSusp FromHelper to]) v ∧
  whelp (drop_helper (set_co (CRun (k v)) s2)) = None.
Proof.
  intros (Hcl & Hu & Hl) Eh0 Hlk Hre Hhi. apply resumed_co in Hre. destruct (resumed_good _ _ _ _ _ _ _ _ Hre) as (Hcl2 & Hu2 & Hl2); [done|].
  assert (Hh2 : ∃ live, whelp s2 = Some (i0, h, live)).
  { pose proof (re_help _ _ _ _ _ _ _ _ Hre) as Hsh. rewrite Eh0 in Hsh. destruct (whelp s2) as [[[??]?]|]; [|done]. destruct Hsh as [<- <-]. eauto. }
  destruct Hh2 as [live Eh2]. pose proof (re_co _ _ _ _ _ _ _ _ Hre) as Hc2.
  split; [unfold step; by rewrite Hu2, Hc2|].
  unfold drop_helper. cbn. rewrite Eh2. split; [|done].
  assert (Hw : ∀ s3 : wstate, wdev s3 = wdev s2 -> walive s3 = walive s2 -> wnow s3 = wnow s2 -> whelp s3 = None -> waited FromHelper to sh s3 l v).
  { intros s3 E1 E2 E3 E4. destruct Hre. split; rewrite ?E1, ?E2, ?E3; done. }
  split.
  - done.
  - split; [|split].
    + destruct Hcl2. split; try done; cbn.
      * by rewrite slots_filter_help.
      * intros j sg q Hinn. cbn in Hinn. pose proof Hinn as Hin2. apply filter_sub in Hinn. destruct (cl_relay j sg q Hinn) as (? & ? & E). rewrite Eh2 in E. simplify_eq.
        apply elem_of_list_In, filter_In in Hin2 as [_ Hxx]. rewrite Nat.eqb_refl in Hxx. done.
    + done.
    + intros sg. cbn. rewrite Hlk, andb_false_r. apply Hl2.
  - cbn. rewrite (re_trace _ _ _ _ _ _ _ _ Hre). cbn. by rewrite <- app_assoc.
  - eapply (waited_helper h to sh); [apply (Hw (set_help None s2)); done|done].
  - apply waited_kept. by apply Hw.
Qed.

Lemma helper_await_or denv h to (k : option P -> wprog A) (sh s : wstate) : good sh -> hready h sh -> (∀ x, leaky h x = false) ->
  exec denv (set_co (CRun (WAwait MQueued FromHelper to (λ r, WDrop (k r)))) sh) s -> step s = Idle -> wubs s = None ->
  (∃ l, wtrace s = l ++ wtrace sh ∧ (relays h (wdev sh) l ≠ [] -> ∃ s' x v, turns s s' ∧ after_wait h to k sh s' (TResume v :: x ++ l) v ∧ whelp s' = None)) ∨
  ∃ s2 l v, exec denv (set_co (CRun (WAwait MQueued FromHelper to (λ r, WDrop (k r)))) sh) s2 ∧ exec denv s2 s ∧ after_wait h to k sh s2 l v ∧ whelp s2 = None.
Proof.
  intros Hg (i0 & live0 & Eh0 & Hlv0 & Hrp0) Hlk Hx Hid Hus. pose proof Hg as (Hcl & Hu & Hl). set (kk := λ r, WDrop (k r)) in *.
  set (si := set_co (CRun (WAwait MQueued FromHelper to kk)) sh) in *.
  assert (Hcli : clean si) by (destruct Hcl; split; done).
  assert (Hubi : wubs si = None) by exact Hu.
  destruct (await_phase MQueued FromHelper to kk si) as (s1 & Hst & Hu1 & Hph); try done.
  destruct (exec_inv _ _ _ Hx) as [->|[(s1' & Hst' & Hx')|(e & s1' & Hst' & _)]]; [congruence| |congruence].
  rewrite Hst in Hst'. injection Hst' as <-.
  assert (Hi : hinv h (wdev sh) (TSusp FromHelper to :: wtrace si) s1).
  { unfold step in Hst. rewrite Hubi in Hst. cbn in Hst. unfold await in Hst. change (whelp si) with (whelp sh) in Hst. rewrite Eh0 in Hst. injection Hst as <-. intros l Hl'. cbn in Hl'.
    assert (l = []) as ->. { apply (app_inv_tail (TSusp FromHelper to :: wtrace sh)). by symmetry. }
    left. split; [done|]. split; [done|]. split; [by exists i0, live0|]. split; [by intros ? ? ?%elem_of_nil|]. exact Hrp0. }
  assert (Hhist : ∀ s2 l v, resumed MQueued FromHelper to kk si s2 l v -> hinv h (wdev sh) (TSusp FromHelper to :: wtrace si) s2 -> helper_hist h (wdev sh) l).
  { intros s2 l v Hre Hi2. destruct (Hi2 (TResume v :: l)) as [(_ & He & _ & Hq & _)|[p Hf]].
    - rewrite (re_trace _ _ _ _ _ _ _ _ Hre). done.
    - left. rewrite emissions_cons, relays_cons, !app_nil_r in *. done.
    - right. exists p. destruct Hf as (l1 & l2 & E & Hf). destruct l1 as [|x l1]; [done|]. cbn in E. injection E as <- ->. exists l1, l2. done. }
  destruct (helper_exec denv h (wdev sh) _ _ _ _ _ _ _ s eq_refl Hph Hu1 Hl Hi Hx') as [(_ & Hi2 & l' & Hp)|(l' & v & s2 & Hre & Hi2 & Hx1 & Hx2)]; rewrite app_nil_r in *.
  - left. exists (l' ++ [TSusp FromHelper to]). split.
    { destruct Hp as [Hsi _]. rewrite (si_trace _ _ _ _ _ Hsi). by rewrite <- app_assoc. }
    intros He. destruct (drain _ _ _ _ (weight (wposted s)) s l' (le_n _) Hp Hus Hid) as (s' & v & x & Htu & Hre).
    + destruct (Hi2 l') as [(_ & Hem & _ & _ & Hr)|[p Hf]]; [destruct Hp as [Hsi _]; apply Hsi| |].
      * right. split; [by intros []|]. intros Hpo. rewrite Hpo in Hr. apply He. rewrite relays_app. cbn. destruct (relays h (wdev sh) l'); done.
      * left. intros Hem. apply first_ready_head in Hf. by rewrite Hem in Hf.
    + assert (Hhi : helper_hist h (wdev sh) (x ++ l')).
      { destruct (helper_exec denv h (wdev sh) _ _ _ _ _ _ _ s' eq_refl Hph Hu1 Hl Hi) as [(_ & _ & l2 & Hp2)|(l2 & v2 & s2 & Hre2 & Hi3 & _ & Hx3)].
        - eapply exec_trans; [exact Hx'|]. by apply turns_exec.
        - exfalso. pose proof (re_co _ _ _ _ _ _ _ _ Hre) as E. destruct Hp2 as [_ [a [[E' _]|[E' _]]]]; rewrite E in E'; done.
        - rewrite app_nil_r in *. destruct (exec_grows _ _ _ Hx3) as [y Hy]. rewrite (re_trace _ _ _ _ _ _ _ _ Hre), (re_trace _ _ _ _ _ _ _ _ Hre2) in Hy. destruct y as [|e y]; cbn in Hy.
          + injection Hy as _ Hy. apply app_inv_tail in Hy as ->. by eapply Hhist.
          + exfalso. injection Hy as _ Hy. assert (E : x ++ l' = y ++ TResume v2 :: l2) by (apply (app_inv_tail (TSusp FromHelper to :: wtrace sh)); rewrite <- (app_assoc y); done).
            apply (re_quiet _ _ _ _ _ _ _ _ Hre (TResume v2)). rewrite E. apply elem_of_app. right. left. }
      destruct (after_drop h to k sh s' i0 live0 (x ++ l') v Hg Eh0 Hlk Hre Hhi) as (Hst3 & Haf & Hh3).
      eexists _, x, v. split; [eapply turns_trans; [exact Htu|]; eapply turns_step; [exact Hst3|constructor]|]. split; [|done].
      rewrite app_assoc. exact Haf.
  - right. destruct (after_drop h to k sh s2 i0 live0 l' v Hg Eh0 Hlk Hre) as (Hst3 & Haf & Hh3); [by eapply Hhist|].
    eexists _, _, v. split; [eapply exec_step; [|exact Hst3]; eapply exec_trans; [eapply exec_step; [constructor|exact Hst]|exact Hx1]|]. split; [|split; [exact Haf|done]].
    destruct (exec_inv _ _ _ Hx2) as [->|[(s3 & Hst4 & Hx3)|(e & s3 & Hst4 & _)]]; [congruence| |congruence]. rewrite Hst3 in Hst4. by injection Hst4 as <-.
Qed.

Lemma helper_or denv h to (k : option P -> wprog A) (s0 s : wstate) : good s0 -> walive s0 = true -> whelp s0 = None -> (∀ x, leaky h x = false) ->
  exec denv (set_co (CRun (qCoro_helper h to k)) s0) s -> step s = Idle -> wubs s = None ->
  (∃ l, wtrace s = l ++ wtrace s0 ∧ (relays h (wdev s0) l ≠ [] -> ∃ s' x v, turns s s' ∧ after_wait h to k s0 s' (TResume v :: x ++ l) v)) ∨
  ∃ s2 l v, exec denv (set_co (CRun (qCoro_helper h to k)) s0) s2 ∧ exec denv s2 s ∧ after_wait h to k s0 s2 l v.
Proof.
  intros Hg Ha Hh Hlk Hx Hid Hus. pose proof Hg as (Hcl & Hu & Hl).
  assert (Haf : ∀ s' l v, after_wait h to k (with_helper h s0) s' l v -> whelp s' = None -> after_wait h to k s0 s' l v).
  { intros s' l v [] Hn. split; try done. destruct af_kept0. by split. }
  unfold qCoro_helper in Hx. destruct (exec_inv _ _ _ Hx) as [->|[(s1' & Hst' & Hx')|(e & s1' & Hst' & _)]]; [by rewrite with_helper_step in Hid| |by rewrite with_helper_step in Hst'].
  rewrite with_helper_step in Hst' by done. injection Hst' as <-.
  destruct (helper_await_or denv h to k (with_helper h s0) s) as [(l & Ht & H)|(s2 & l & v & Hx0 & Hx2 & Ha2 & Hh2)]; try done.
  - split; [by apply with_helper_clean|done].
  - by apply hready_new.
  - left. exists l. split; [done|]. intros Hr. destruct (H Hr) as (s' & l' & v & Ht' & Ha' & Hh'). exists s', l', v. auto.
  - right. exists s2, l, v. split; [|by auto]. eapply exec_trans; [eapply exec_step; [constructor|by apply with_helper_step]|exact Hx0].
Qed.
End wait_or.
