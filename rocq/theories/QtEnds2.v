(** * More rules about calls that end. *)
From stdpp Require Import list.
From Verif Require Import QtModel QtSpec QtInv QtAwait QtReach QtWrap QtTrace QtBehave QtCall QtEnds QtCall2.

Section ends2.
Context {D S P O A : Type}.
Notation wstate := (@wstate D S P O A).
Notation wprog := (@wprog D S P O).
Notation tev := (@tev D S P O A).
Notation src := (@src S P).
#[local] Arguments slots : simpl never.
#[local] Arguments emissions : simpl never.
#[local] Arguments relays : simpl never.

Lemma cends_mono {B} denv s0 (p : (B -> wprog A) -> wprog A) (W W' : list tev -> Prop) : (∀ l, W' l -> W l) -> cends denv s0 p W -> cends denv s0 p W'.
Proof. intros HW H Hg k s l ? ? ? ? ?. eapply (H Hg k s l); try done. by apply HW. Qed.

Lemma cends_log {B} denv s0 s1 (p p' : (B -> wprog A) -> wprog A) l0 (W : list tev -> Prop) :
  (good s0 -> ∀ k, step (set_co (CRun (p k)) s0) = Next (set_co (CRun (p' k)) s1)) -> (good s0 -> good s1) -> wtrace s1 = l0 ++ wtrace s0 ->
  cends denv s1 p' (λ l', W (l' ++ l0)) -> cends denv s0 p W.
Proof.
  intros Hst Hgg Ht0 H Hg k s l Hx Hid Hu Ht HW. destruct (exec_inv _ _ _ Hx) as [->|[(s1' & Hst' & Hx')|(e & s1' & Hst' & _)]]; cycle 2.
  { rewrite (Hst Hg) in Hst'. done. }
  { by rewrite (Hst Hg) in Hid. }
  rewrite (Hst Hg) in Hst'. injection Hst' as <-. destruct (exec_grows _ _ _ Hx') as [l' Hl']. change (wtrace (set_co (CRun (p' k)) s1)) with (wtrace s1) in Hl'.
  assert (l = l' ++ l0) as ->. { apply (app_inv_tail (wtrace s0)). by rewrite <- app_assoc, <- Ht0, <- Ht. }
  destruct (H (Hgg Hg) k s l' Hx' Hid Hu) as [(s2 & Hx1 & Hx2 & He)|?]; [done|done| |by right].
  left. exists s2. split; [|done]. eapply exec_trans; [|exact Hx1]. eapply exec_step; [constructor|by apply Hst].
Qed.

Lemma cends_call_emits {B} denv s0 c (f : D -> (B -> wprog A) -> wprog A) (W : list tev -> Prop) : walive s0 = true -> whelp s0 = None ->
  let d1 := fst (c (wdev s0)) in let l0 := emitted_by (snd (c (wdev s0))) ++ [TDev d1] in
  cends denv (wlogs l0 (set_dev d1 s0)) (f (wdev s0)) (λ l', W (l' ++ l0)) -> cends denv s0 (λ k, WCall c (λ d, f d k)) W.
Proof.
  intros Ha Hh d1 l0 H. eapply cends_log; [..|exact H]; try done.
  - intros (Hcl & Hu & Hl) k. unfold step. cbn. rewrite Hu, Ha. rewrite emits_logged; [|apply Hcl|done|done].
    unfold wlogs, l0, d1. cbn. rewrite <- app_assoc. done.
  - intros [[] [? ?]]. split; [split|]; done.
Qed.

Lemma cends_ret {B} denv (s0 : wstate) (b : B) W : cends denv s0 (λ k : B -> wprog A, k b) W.
Proof. apply cends_imm. intros k _. apply imm_done. left. by exists b. Qed.
Lemma cends_get_dead {B} denv (s0 : wstate) (f : D -> (B -> wprog A) -> wprog A) W : walive s0 = false -> cends denv s0 (λ k, WGet (λ d, f d k)) W.
Proof.
  intros Ha. apply cends_imm. intros k (_ & Hu & _). eapply imm_step; [unfold step; cbn; rewrite Hu, Ha; reflexivity|]. apply imm_done. right. cbn. eauto.
Qed.

(** co_await of a timer: the resumption happens within the emission. *)
Lemma cends_direct denv (mm : S -> P -> option P) (s0 : wstate) : walive s0 = true ->
  cends denv s0 (λ k, WAwait MDirect (FromDev mm) None k) (λ l, emissions (FromDev mm) l ≠ []).
Proof.
  intros Ha (Hcl & Hu & Hl) k s l Hx Hid Hus Ht HW.
  destruct (await_exec denv MDirect (FromDev mm) None k (set_co (CRun (WAwait MDirect (FromDev mm) None k)) s0) s) as [->|[[_ [l' Hp]]|(l' & v & s2 & Hre & Hx1 & Hx2)]]; try done.
  - destruct Hcl. split; done.
  - unfold step in Hid. cbn in Hid. rewrite Hu in Hid. done.
  - exfalso. destruct Hp as [Hsi [a [[Hco Hwa]|[Hco _]]]]; [|unfold step in Hid; by rewrite Hus, Hco in Hid].
    assert (l = l' ++ [TSusp (FromDev mm) None]) as ->.
    { rewrite (si_trace _ _ _ _ _ Hsi) in Ht. symmetry. apply (app_inv_tail (wtrace s0)). by rewrite <- app_assoc. }
    destruct (wa_mod _ _ _ _ _ _ _ Hwa) as (_ & _ & _ & He). apply HW. rewrite emissions_app. rewrite He. done.
  - left. exists s2. split; [done|]. split; [done|]. left. exists v. apply Hre.
Qed.

(** co_await of a device: a zero timer resumes. *)
Lemma cends_shot denv (mm : S -> P -> option P) (s0 : wstate) : walive s0 = true ->
  cends denv s0 (λ k, WAwait MShot (FromDev mm) None k) (λ l, emissions (FromDev mm) l ≠ []).
Proof.
  intros Ha (Hcl & Hu & Hl) k s l Hx Hid Hus Ht HW.
  destruct (await_exec denv MShot (FromDev mm) None k (set_co (CRun (WAwait MShot (FromDev mm) None k)) s0) s) as [->|[[_ [l' Hp]]|(l' & v & s2 & Hre & Hx1 & Hx2)]]; try done.
  - destruct Hcl. split; done.
  - unfold step in Hid. cbn in Hid. rewrite Hu in Hid. done.
  - right. pose proof Hp as [Hsi [a [[Hco Hwa]|[Hco _]]]]; [|unfold step in Hid; by rewrite Hus, Hco in Hid].
    assert (l = l' ++ [TSusp (FromDev mm) None]) as ->.
    { rewrite (si_trace _ _ _ _ _ Hsi) in Ht. symmetry. apply (app_inv_tail (wtrace s0)). by rewrite <- app_assoc. }
    destruct (wa_mod _ _ _ _ _ _ _ Hwa) as (_ & [(_ & _ & He)|(p & Hr & _ & Hsh & _)]).
    { exfalso. apply HW. rewrite emissions_app. rewrite He. done. }
    assert (E1 : env_step EvShot s = Next (set_co (CBack k) (set_shots 0 s))).
    { unfold env_step. rewrite Hsh. unfold resume. change (wco (set_shots 0 s)) with (wco s). rewrite Hco. done. }
    eexists. split.
    + eapply turns_env; [done|done|exact E1|done|]. eapply turns_step; [|constructor]. unfold step. cbn. rewrite Hus. reflexivity.
    + left. eexists. cbn. unfold drop_awaiter. cbn. rewrite (wa_aw _ _ _ _ _ _ _ Hwa). cbn. done.
  - left. exists s2. split; [done|]. split; [done|]. left. exists v. apply Hre.
Qed.
End ends2.
